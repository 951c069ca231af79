(** A program logic for parser programs: every run of a [prog] from a well-formed parser
    state either returns, fails after having reported an Error, or panics for one of the
    allowed reasons; it consumes input, and everything it returns is well-formed. *)
From Verif Require Export StdinFacts LeafSpec Generic.
Local Open Scope string_scope.
Local Open Scope list_scope.

(** ** Runs with a ghost log of the positional arguments that were numbered *)
Record gst := mkG { g_st : pst; g_log : list (N * span) }.
Inductive gres (A : Type) := GOk (a : A) (G : gst) | GErr (G : gst) | GPanic (w : panic) | GFuel.
Arguments GOk {A} a G. Arguments GErr {A} G. Arguments GPanic {A} w. Arguments GFuel {A}.
Definition log_step {X} (o : op X) (S : gst) : list (N * span) :=
  match o with
  | OArg => g_log S ++ [(s_arg (g_st S), s_span (g_st S))]
  | _ => g_log S
  end.
Fixpoint rung {A} (p : prog A) (S : gst) : gres A :=
  match p with
  | Ret a => GOk a S
  | Fail => GErr S
  | Panic w => GPanic w
  | OutOfFuel => GFuel
  | Op o k => match exec o (g_st S) with
              | XOk x st' => rung (k x) (mkG st' (log_step o S))
              | XPanic w => GPanic w
              | XFuel => GFuel
              end
  | Try p k => match rung p S with
               | GOk x S' => rung (k (Some x)) S'
               | GErr S' => rung (k None) S'
               | GPanic w => GPanic w
               | GFuel => GFuel
               end
  end.
Definition forget {A} (r : gres A) : res A :=
  match r with
  | GOk a G => ROk a (g_st G) | GErr G => RErr (g_st G) | GPanic w => RPanic w | GFuel => RFuel
  end.
Theorem rung_run A (p : prog A) : forall S, run p (g_st S) = forget (rung p S).
Proof.
  induction p as [A a|A|A w|A|A X o k IH|A X p IHp k IH]; intros S; cbn [run rung]; try reflexivity.
  - destruct (exec o (g_st S)) as [x st'| |]; try reflexivity. now rewrite <- IH.
  - rewrite IHp. destruct (rung p S); cbn; try reflexivity; apply IH.
Qed.
Lemma rung_bind A B (p : prog A) (k : A -> prog B) : forall S,
  rung (bind p k) S = match rung p S with
                      | GOk a S' => rung (k a) S' | GErr S' => GErr S' | GPanic w => GPanic w | GFuel => GFuel
                      end.
Proof.
  induction p as [A a|A|A w|A|A X o k' IH|A X p IHp k' IH]; intros S; cbn [bind rung]; try reflexivity.
  - destruct (exec o (g_st S)); auto.
  - destruct (rung p S); auto.
Qed.

(** ** Positions: whatever a program does, the current token only moves on *)
Definition lexical (st : pst) : Prop :=
  lwf (s_lex st) /\ fst (s_span st) <= snd (s_span st) /\
  match s_peek st with
  | Some (_, s) => snd (s_span st) <= fst s /\ fst s <= snd s /\ snd s <= l_pos (s_lex st)
  | None => snd (s_span st) <= l_pos (s_lex st)
  end.
Definition moved (st st' : pst) : Prop :=
  lexical st -> lexical st' /\ fst (s_span st) <= fst (s_span st') /\ snd (s_span st) <= snd (s_span st').
Lemma moved_refl st : moved st st.
Proof. intros H. auto. Qed.
Lemma moved_trans a b c : moved a b -> moved b c -> moved a c.
Proof. intros H1 H2 H. destruct (H1 H) as (A & B & C). destruct (H2 A) as (A' & B' & C'). split; [exact A'|lia]. Qed.
Lemma lex_moves l t s l' : lwf l -> next_token l = LOk (t, s) l' -> lwf l' /\ l_pos l <= fst s /\ fst s <= snd s /\ snd s = l_pos l'.
Proof.
  intros W E. pose proof (next_token_spec l W) as H. rewrite E in H. destruct (token_at_facts _ _ _ _ W H) as (H1 & H2 & H3 & H4 & _).
  destruct (token_at_gap _ _ _ _ W H) as [_ G]. auto.
Qed.
Lemma next_moved st st' : p_next st = XOk tt st' -> moved st st'.
Proof.
  unfold p_next. intros H (W & L1 & L2). destruct (s_peek st) as [[t s]|].
  - injection H as <-. unfold lexical. cbn. destruct L2 as (L2 & L3 & L4). repeat split; auto; lia.
  - destruct (next_token (s_lex st)) as [[t s] l|] eqn:E; [|discriminate]. injection H as <-. destruct (lex_moves _ _ _ _ W E) as (W' & P1 & P2 & P3).
    unfold lexical. cbn. repeat split; auto; lia.
Qed.
Lemma issue_moved l t s fr st st' : p_issue l t s fr st = XOk tt st' -> moved st st'.
Proof. unfold p_issue. destruct (slice _ _ _); [|discriminate]. destruct (build_frags _ _); [|discriminate]. intros H. injection H as <-. exact (moved_refl st). Qed.
Lemma recover_moved n f : forall b st x st', recover_f n f b st = XOk x st' -> moved st st'.
Proof.
  induction n as [|n IH]; intros b st x st'; cbn [recover_f]; [discriminate|]. cbv zeta.
  assert (S : forall b', match p_next st with
        | XOk _ st' => recover_f n f b' st' | XPanic w => XPanic w | XFuel => XFuel end = XOk x st' -> moved st st').
  { intros b' H. destruct (p_next st) as [[] st1| |] eqn:E; try discriminate.
    eapply moved_trans; [apply next_moved; eauto|eauto]. }
  destruct (_ && _); [intros H; injection H as _ <-; apply moved_refl|].
  destruct (tok_eqb _ _); [intros H; injection H as _ <-; apply moved_refl|].
  destruct (tok_eqb _ _); [intros H; injection H as _ <-; apply moved_refl|].
  destruct (s_tok st); apply S.
Qed.
Lemma exec_moved X (o : op X) st x st' : exec o st = XOk x st' -> moved st st'.
Proof.
  destruct o; cbn [exec]; try (intros H; injection H as _ <-; exact (moved_refl st)).
  - destruct x. apply next_moved.
  - unfold p_peek. destruct (s_peek st) as [[t s]|] eqn:P; [intros H; injection H as _ <-; exact (moved_refl st)|].
    destruct (next_token (s_lex st)) as [[t s] l|] eqn:E; [|discriminate]. intros H. injection H as _ <-. intros (W & L1 & L2). rewrite P in L2.
    destruct (lex_moves _ _ _ _ W E) as (W' & P1 & P2 & P3). unfold lexical. cbn. repeat split; auto; lia.
  - destruct x. apply issue_moved.
  - destruct x. destruct (o_warn_unquoted _); [apply issue_moved|]. intros H; injection H as <-; apply moved_refl.
  - destruct x. destruct (_ && _); [apply issue_moved|]. intros H; injection H as <-; apply moved_refl.
  - apply recover_moved.
  - unfold p_stdin. destruct (read_from_stdin _) as [d l|] eqn:E; [|discriminate].
    destruct (p_next _) as [[] st1| |] eqn:E2; try discriminate. intros H; injection H as _ <-.
    apply next_moved in E2. eapply moved_trans; [|exact E2]. intros (W & L1 & L2). destruct (read_from_stdin_spec _ W) as (d' & sp & l' & E' & A).
    rewrite E' in E. injection E as _ <-. apply stdin_at_adv in A as (w & A). pose proof (adv_lwf _ _ _ W A) as W'. destruct A as (_ & _ & A).
    unfold lexical. cbn. destruct (s_peek st) as [[t s]|]; repeat split; auto; try lia.
Qed.
Theorem run_moved A (p : prog A) : forall st,
  match run p st with ROk _ st' | RErr st' => moved st st' | _ => True end.
Proof.
  induction p as [A a|A|A w|A|A X o k IH|A X p IHp k IH]; intros st; cbn [run]; try apply moved_refl; try exact I.
  - destruct (exec o st) as [x st1| |] eqn:E; try exact I. apply exec_moved in E.
    specialize (IH x st1). destruct (run (k x) st1); auto; eapply moved_trans; eauto.
  - specialize (IHp st). destruct (run p st) as [x st1|st1| |]; try exact I.
    + specialize (IH (Some x) st1). destruct (run (k (Some x)) st1); auto; eapply moved_trans; eauto.
    + specialize (IH None st1). destruct (run (k None) st1); auto; eapply moved_trans; eauto.
Qed.

(** ** Messages *)
Fixpoint prefixb (p t : text) : bool :=
  match p, t with
  | [], _ => true
  | c :: p, d :: t => N.eqb c d && prefixb p t
  | _, [] => false
  end.
(** The message of an internal error of the expression reducer or of [Parser::ice]. *)
Definition internal_error (m : text) : bool :=
  prefixb (txt "Internal compiler error") m || prefixb (txt "ICE") m.

(** The features a message is about. *)
Definition all_features : list feature :=
  [FIndexHint; FKeyLock; FCreateType; FUpdateReturning; FOnDuplicate; FOnConflict; FWith; FPartialIndex;
   FDropIndexOn; FDropIndexNoOn; FAddColumnIfNotExists; FWithStatement; FWithMain; FBacktick; FOpclass;
   FReplaceFlag; FSetColumns; FNoRows].
(** A message that may be reported anywhere when the dialect is [d]: it is no internal error,
    it is not about a reserved word, an unquoted name or the capitals of a keyword, and it is not about a feature the dialect has. *)
Definition plain_in (d : dialect) (m : text) : bool :=
  negb (internal_error m) && negb (prefixb (txt "'") m) && negb (prefixb (txt "keyword ") m) && negb (prefixb (txt "identifiers should be quoted") m) &&
  forallb (fun f => negb (text_eqb (txt (feature_message f)) m) || negb (feature_in f d)) all_features.

(** ** Measures *)
Definition is_eof (t : tok) : bool := match t with TEof => true | _ => false end.
Definition b2n (b : bool) : nat := if b then 1 else 0.
(** An upper bound on the number of tokens that are still to come. *)
Definition m (S : gst) : nat :=
  b2n (negb (is_eof (s_tok (g_st S)))) +
  match s_peek (g_st S) with Some (t, _) => b2n (negb (is_eof t)) | None => 0 end +
  length (l_rest (s_lex (g_st S))).
Definition is_error (i : issue) : bool := match i_level i with Error => true | Warning => false end.
(** Number of Error issues. *)
Definition nerrs (l : list issue) : nat := length (filter is_error l).
Definition nerr (S : gst) : nat := nerrs (s_issues (g_st S)).
Definition tk (S : gst) : tok := s_tok (g_st S).
Definition sp (S : gst) : span := s_span (g_st S).

(** Texts of placeholders. *)
Definition placeholder (o : options) (w : text) : Prop :=
  (o_arguments o = ArgQuestionMark /\ w = txt "?") \/ (o_arguments o = ArgPercent /\ w = txt "%s") \/
  (o_list_hack o = true /\ upper w = txt "_LIST_").
(** The log: consecutive numbers from zero, at increasing positions; [p] is where it ends. *)
Inductive log_ok (src : text) (o : options) : list (N * span) -> nat -> Prop :=
| lk_nil : log_ok src o [] 0
| lk_snoc l p n s w : log_ok src o l p -> n = N.of_nat (length l) -> p <= fst s ->
    at_span src s w -> placeholder o w -> log_ok src o (l ++ [(n, s)]) (snd s).

(** What the logic is about: the source text, the options, whether empty blocks may occur
    ([nb]), which panics are allowed, the issues at the end of the run ([fin_issues], a
    prophecy; without it, panics and exhaustion are excluded), the weight [wt] of an atom and the credit [cr] that the
    errors reported and the arguments numbered so far give. *)
Class env := mkEnv {
  src : text; opts : options; nb : bool; pan : panic -> Prop;
  fin_issues : option (list issue); lo : nat; hi : nat;
  wt : atom -> nat; winv : nat; cr : nat -> list (N * span) -> nat;
  pan_hex : has_hex src -> pan PHexLiteral;
  pan_dollar : has_big_dollar src -> pan PDollarOverflow;
  pan_block : nb = true -> has_word src "WITH" -> pan PSpanOfBlock;
  nb_begin : has_word src "BEGIN" -> nb = true;
  wt_span : forall s, wt (ASpan s) = 0;
  wt_ident : forall v s, wt (AIdent v s) = 0;
  wt_text : forall v s, wt (AText v s) = 0;
  wt_empty : forall w, wt (AEmpty w) = 0;
  wt_leaf : forall l s, wt (ALeaf l s) = 0;
  wt_feature : forall f s, wt (AFeature f s) = 0;
  wt_inv : forall s, wt (AInvalid s) <= winv;
  wt_dollar : forall n s ds, at_span src s (36%N :: ds) -> wt (AArg n s) = 0;
  cr_mono : forall n n' l l', n <= n' -> cr n l <= cr n' (l ++ l');
  cr_err : forall n n' l l', n < n' -> cr n l + winv <= cr n' (l ++ l');
  cr_arg : forall n n' l k s, n <= n' -> cr n l + wt (AArg k s) <= cr n' (l ++ [(k, s)]) }.

Section Logic.
Context {V : env}.
Definition AA (S : gst) : nat := cr (nerr S) (g_log S).
Definition W (l : list atom) : nat := list_sum (map wt l).

(** What is known about the issues at the end. *)
Definition finally (P : list issue -> Prop) : Prop := match fin_issues with None => True | Some f => P f end.
Definition reported (m : text) (s : span) (l : list issue) : Prop :=
  exists i, In i l /\ i_level i = Error /\ i_message i = m /\ i_span i = s.
(** The same at any level. *)
Definition noted (m : text) (s : span) (l : list issue) : Prop := exists i, In i l /\ i_message i = m /\ i_span i = s.
(** A span between [lo] and [hi], if the issues at the end are known.  After an Error it may start at 0. *)
Definition inside (s : span) : Prop := finally (fun l => snd s <= hi /\ (lo <= fst s \/ (fst s = 0 /\ 0 < nerrs l))).
Definition wspan (t : text) (s : span) : Prop := vspan t s /\ inside s.
Definition wat_span (t : text) (s : span) (w : text) : Prop := at_span t s w /\ inside s.
Lemma wat_wspan t s w : wat_span t s w -> wspan t s.
Proof. intros [H I]. split; [eapply at_vspan; eauto|exact I]. Qed.
(** A reserved word. *)
Definition reserved (v : text) : bool := kw_reserved (kw_of_text (upper v)).
(** The use of a feature is one of the dialect, or it is reported.  (For a statement in a WITH
    block and a missing row list: some Error is reported.) *)
Definition feature_ok (f : feature) (s : span) : Prop :=
  feature_in f (o_dialect opts) = true \/
  finally (match f with FWithStatement | FNoRows => fun l => 0 < nerrs l | _ => reported (txt (feature_message f)) s end).
(** The texts an identifier with value [v] may have. *)
Definition ident_text (v w : text) : Prop :=
  w = v \/ w = txt "`" ++ v ++ txt "`" \/ w = [34%N] ++ v ++ [34%N].
Definition arg_text (n : N) (w : text) : Prop :=
  placeholder opts w \/
  (o_arguments opts = ArgDollar /\ exists d ds, w = 36%N :: d :: ds /\ (49 <= d <= 57)%N /\ Forall digit ds /\
     dec_value (d :: ds) = (n + 1)%N).
(** Well-formed atoms. *)
Definition ok (b : bool) (a : atom) : Prop :=
  match a with
  | ASpan s => wspan src s
  | AIdent v s => exists w, wat_span src s w /\ ident_text v w /\
                  (w = v -> reserved v = true -> finally (reported (msg_reserved v) s)) /\
                  (w = v -> v <> [] -> reserved v = false -> o_warn_unquoted opts = true -> finally (noted (msg_unquoted v) s))
  | ALeaf l s => exists w, wat_span src s w /\ leaf_text l w
  | AFeature f s => feature_ok f s
  | AText v s => wat_span src s v /\ stdin_block src v s
  | AArg n s => exists w, wat_span src s w /\ arg_text n w
  | AInvalid s => wspan src s
  | AEmpty w => b = true /\ w = PSpanOfBlock
  end.
Lemma ok_mono b l : Forall (ok false) l -> Forall (ok b) l.
Proof. apply Forall_impl. intros [| | | | | | |w]; cbn; auto. intros [? _]. discriminate. Qed.
(** The keyword [v] stands at [s]. *)
Definition keyword_at (v : text) (s : span) : Prop := at_span src s v /\ exists k, kw_of_text (upper v) = KW k.
(** A keyword that does not consist of capital letters, with the lint for capitals on. *)
Definition caps_lint (v : text) (s : span) : Prop :=
  keyword_at v s /\ forallb is_ascii_uppercase v = false /\ o_warn_caps opts = true.
(** Issues: about anything but reserved words, names without quotes and capitals, or about such a word that stands there. *)
(** A word that is no reserved word, with the lint for names without quotes on. *)
Definition unquoted_lint (v : text) (s : span) : Prop :=
  at_span src s v /\ reserved v = false /\ o_warn_unquoted opts = true.
Definition good_issue (i : issue) : Prop :=
  plain_in (o_dialect opts) (i_message i) = true \/
  (exists v, i_level i = Error /\ i_message i = msg_reserved v /\ at_span src (i_span i) v /\ reserved v = true) \/
  (exists v, i_level i = Warning /\ i_message i = msg_caps v /\ caps_lint v (i_span i)) \/
  exists v, i_message i = msg_unquoted v /\ unquoted_lint v (i_span i).

(** Token [t] stands at [s]; the end of the input is at the end of the input. *)
Definition tok_at0 (t : tok) (s : span) : Prop :=
  (is_eof t = true -> fst s = blen src) /\ exists w, at_span src s w /\ tok_text t w.
Definition tok_at (t : tok) (s : span) : Prop :=
  (is_eof t = true -> fst s = blen src) /\ exists w, wat_span src s w /\ tok_text t w.
Lemma tok_at_0 t s : tok_at t s -> tok_at0 t s.
Proof. intros (H & w & [A _] & T). split; [exact H|]. eauto. Qed.
Lemma tok_at_in t s : tok_at t s -> inside s.
Proof. intros (H & w & [_ A] & T). exact A. Qed.
Lemma tok_at_is t s : tok_at0 t s -> inside s -> tok_at t s.
Proof. intros (H & w & A & T) I. split; [exact H|]. exists w. split; [now split|exact T]. Qed.
(** [late]: the current token may already have been numbered as an argument. *)
Record wfx (late : bool) (S : gst) : Prop := mkWf {
  w_lwf : lwf (s_lex (g_st S));
  w_src : l_src (s_lex (g_st S)) = src;
  w_isrc : s_isrc (g_st S) = src;
  w_opts : s_opts (g_st S) = opts;
  w_tok : tok_at (tk S) (sp S);
  w_nxt : match s_peek (g_st S) with
          | Some (_, s) => gap_at src (snd (sp S)) (fst s)
          | None => snd (sp S) = l_pos (s_lex (g_st S))
          end;
  w_peek : match s_peek (g_st S) with
           | Some (t, s) => tok_at0 t s /\ snd s = l_pos (s_lex (g_st S))
           | None => True
           end;
  w_arg : s_arg (g_st S) = N.of_nat (length (g_log S));
  w_log : exists p, log_ok src opts (g_log S) p /\ p <= (if late then snd (sp S) else fst (sp S));
  w_issues : Forall good_issue (s_issues (g_st S));
  w_lo : finally (fun _ => lo <= fst (sp S)) }.

Definition wf : gst -> Prop := wfx false.

(** [S] is a state that can be reached from [E]. *)
Record cx (E S : gst) : Prop := mkCx {
  c_wf : wf S;
  c_m : m S <= m E;
  c_nerr : nerr E <= nerr S;
  c_delim : s_delim (g_st S) = s_delim (g_st E);
  c_log : exists l, g_log S = g_log E ++ l;
  c_pos : fst (sp E) <= fst (sp S);
  c_permit : s_permit (g_st S) = s_permit (g_st E) \/ (has_word src "TRIGGER" /\ nerr E < nerr S) }.
Lemma cx_refl S : wf S -> cx S S.
Proof. intros H. constructor; auto. exists []. now rewrite app_nil_r. Qed.
Lemma cx_trans a b c : cx a b -> cx b c -> cx a c.
Proof.
  intros [H1 H2 H3 H4 [l H5] H6 H7] [G1 G2 G3 G4 [l' G5] G6 G7]. constructor; auto; try lia; try congruence.
  - exists (l ++ l'). rewrite G5, H5. now rewrite app_assoc.
  - destruct H7 as [H7|[H7 H8]]; [|right; split; [exact H7|lia]]. destruct G7 as [G7|[G7 G8]]; [|right; split; [exact G7|lia]]. left. congruence.
Qed.
Lemma cx_A E S : cx E S -> AA E <= AA S.
Proof. intros [_ _ L _ [l H] _ _]. unfold AA. rewrite H. now apply cr_mono. Qed.
Lemma cx_A_err E S : cx E S -> nerr E < nerr S -> AA E + winv <= AA S.
Proof. intros [_ _ _ _ [l H] _ _] L. unfold AA. rewrite H. now apply cr_err. Qed.

Definition post {T} {I : Atoms T} (E : gst) (b : bool) (i : nat) (d e g : T -> nat) (a : T) (S : gst) : Prop :=
  cx E S /\ m S + d a <= m E /\ nerr E + e a <= nerr S /\ AA E + g a <= AA S + i /\ Forall (ok b) (atoms a).
Definition fpost (E S : gst) : Prop := cx E S /\ nerr E < nerr S.

(** The issues so far are the first ones of those at the end; the current token is not beyond [hi]. *)
Definition compat (S : gst) : Prop := finally (fun f => (exists r, f = s_issues (g_st S) ++ r) /\ (lexical (g_st S) -> snd (sp S) <= hi)).
Definition wp {T} (p : prog T) (Q : T -> gst -> Prop) (F : gst -> Prop) (S : gst) : Prop :=
  match rung p S with
  | GOk a S' => compat S' -> Q a S'
  | GErr S' => compat S' -> F S'
  | GPanic w => fin_issues = None -> pan w
  | GFuel => fin_issues <> None
  end.
Lemma compat_step S S' : (exists r, s_issues (g_st S') = s_issues (g_st S) ++ r) -> moved (g_st S) (g_st S') -> compat S' -> compat S.
Proof.
  unfold compat, finally. destruct fin_issues as [f|]; [|auto]. intros [r E] M [[r' E'] H]. split; [exists (r ++ r'); now rewrite E', E, app_assoc|].
  intros L. destruct (M L) as (L' & _ & P). specialize (H L'). unfold sp in *. lia.
Qed.
Lemma compat_rung T (p : prog T) S :
  match rung p S with GOk _ S' | GErr S' => compat S' -> compat S | _ => True end.
Proof.
  pose proof (run_grown _ p (g_st S)) as G. pose proof (run_moved _ p (g_st S)) as M. rewrite rung_run in G, M. destruct (rung p S) as [a S'|S'|w|]; cbn [forget] in G, M; auto;
    (apply compat_step; [destruct G as (_ & _ & _ & n & E & _); eauto|exact M]).
Qed.
Lemma wp_compat T (p : prog T) Q F S : (compat S -> wp p Q F S) -> wp p Q F S.
Proof.
  intros H. pose proof (compat_rung T p S) as C. unfold wp in *. destruct (rung p S) as [a S'|S'|w|].
  - intros K. now apply H; auto.
  - intros K. now apply H; auto.
  - intros N. apply H; [|exact N]. unfold compat, finally. now rewrite N.
  - intros N. apply H; [|exact N]. unfold compat, finally. now rewrite N.
Qed.
Lemma wp_ret T (a : T) (Q : T -> gst -> Prop) F S : Q a S -> wp (Ret a) Q F S.
Proof. intros H _. exact H. Qed.
Lemma wp_bind T U (p : prog T) (k : T -> prog U) Q F S :
  wp p (fun a S' => wp (k a) Q F S') F S -> wp (bind p k) Q F S.
Proof.
  intros H. unfold wp in *. rewrite rung_bind. destruct (rung p S) as [a S'|S'|w|]; auto.
  pose proof (compat_rung _ (k a) S') as C. destruct (rung (k a) S') as [b S2|S2|w|].
  - intros K. auto.
  - intros K. auto.
  - intros N. apply H; auto. unfold compat, finally. now rewrite N.
  - intros N. apply H in N; auto. unfold compat, finally. now rewrite N.
Qed.
Lemma wp_conseq T (p : prog T) (Q Q' : T -> gst -> Prop) (F F' : gst -> Prop) S :
  wp p Q F S -> (forall a S', Q a S' -> Q' a S') -> (forall S', F S' -> F' S') -> wp p Q' F' S.
Proof. unfold wp. destruct (rung p S); auto. Qed.
Lemma wp_try T U (p : prog T) (k : option T -> prog U) Q F S :
  wp p (fun a S' => wp (k (Some a)) Q F S') (fun S' => wp (k None) Q F S') S -> wp (Try p k) Q F S.
Proof.
  unfold wp. cbn [rung]. destruct (rung p S) as [a S'|S'|w|]; auto; intros H.
  - pose proof (compat_rung _ (k (Some a)) S') as C. destruct (rung (k (Some a)) S') as [b S2|S2|w|].
    + intros K. auto.
    + intros K. auto.
    + intros N. apply H; auto. unfold compat, finally. now rewrite N.
    + intros N. apply H in N; auto. unfold compat, finally. now rewrite N.
  - pose proof (compat_rung _ (k None) S') as C. destruct (rung (k None) S') as [b S2|S2|w|].
    + intros K. auto.
    + intros K. auto.
    + intros N. apply H; auto. unfold compat, finally. now rewrite N.
    + intros N. apply H in N; auto. unfold compat, finally. now rewrite N.
Qed.
Lemma wp_op T X (o : op X) (k : X -> prog T) Q F S :
  (forall x st', exec o (g_st S) = XOk x st' -> wp (k x) Q F (mkG st' (log_step o S))) ->
  (forall w, exec o (g_st S) = XPanic w -> pan w) ->
  exec o (g_st S) <> XFuel -> wp (Op o k) Q F S.
Proof. unfold wp. cbn [rung]. intros H1 H2 H3. destruct (exec o (g_st S)); [now apply H1|auto|congruence]. Qed.
Lemma wp_op_none T X (o : op X) (k : X -> prog T) Q F S :
  (forall x st', exec o (g_st S) = XOk x st' -> wp (k x) Q F (mkG st' (log_step o S))) ->
  (fin_issues = None -> forall w, exec o (g_st S) = XPanic w -> pan w) ->
  (fin_issues = None -> exec o (g_st S) <> XFuel) -> wp (Op o k) Q F S.
Proof. unfold wp. cbn [rung]. intros H1 H2 H3. destruct (exec o (g_st S)); [now apply H1|auto|]. intros N. now apply H3. Qed.
Lemma compat_none S : fin_issues = None -> compat S.
Proof. intros N. unfold compat, finally. now rewrite N. Qed.
(** An Error that has been reported is one of those at the end. *)
Lemma finally_reported S m s : compat S -> reported m s (s_issues (g_st S)) -> finally (reported m s).
Proof.
  unfold compat, finally. destruct fin_issues as [f|]; [|auto]. intros [[r ->] _] (i & H1 & H2). exists i. split; [|exact H2]. apply in_or_app. now left.
Qed.
Lemma finally_noted S m s : compat S -> noted m s (s_issues (g_st S)) -> finally (noted m s).
Proof.
  unfold compat, finally. destruct fin_issues as [f|]; [|auto]. intros [[r ->] _] (i & H1 & H2). exists i. split; [|exact H2]. apply in_or_app. now left.
Qed.
Lemma finally_error S : compat S -> 0 < nerr S -> finally (fun l => 0 < nerrs l).
Proof.
  unfold compat, finally, nerr. destruct fin_issues as [f|]; [|auto]. intros [[r ->] _] H. unfold nerrs in *. rewrite filter_app, app_length. lia.
Qed.

Definition spec {T} {I : Atoms T} (b : bool) (N : nat) (i : nat) (d e g : T -> nat) (p : prog T) : Prop :=
  forall S, wf S -> m S < N -> wp p (post S b i d e g) (fpost S) S.

Lemma fpost_trans E S S' : cx E S -> fpost S S' -> fpost E S'.
Proof. intros C [H1 H2]. split; [eapply cx_trans; eauto|]. apply c_nerr in C. lia. Qed.

(** Composition: a step with a known specification. *)
Lemma step_ T U (I : Atoms T) b N i d e g (p : prog T) (k : T -> prog U) E S Q :
  spec b N i d e g p -> cx E S -> m S < N ->
  (forall a S', cx E S' -> cx S S' -> m S' + d a <= m S -> nerr S + e a <= nerr S' -> AA S + g a <= AA S' + i -> Forall (ok b) (atoms a) ->
     wp (k a) Q (fpost E) S') ->
  wp (bind p k) Q (fpost E) S.
Proof.
  intros Hs C L H. apply wp_bind. eapply wp_conseq; [apply Hs; [apply C|exact L]| |].
  - intros a S' (C' & H1 & H2 & H3 & H4). apply H; auto. eapply cx_trans; eauto.
  - intros S'. now apply fpost_trans.
Qed.
Lemma step_inl T U (I : Atoms T) b i d e g (p : prog T) (k : T -> prog U) E S Q :
  wp p (post S b i d e g) (fpost S) S -> cx E S ->
  (forall a S', cx E S' -> cx S S' -> m S' + d a <= m S -> nerr S + e a <= nerr S' -> AA S + g a <= AA S' + i -> Forall (ok b) (atoms a) ->
     wp (k a) Q (fpost E) S') ->
  wp (bind p k) Q (fpost E) S.
Proof.
  intros Hs C H. apply wp_bind. eapply wp_conseq; [exact Hs| |].
  - intros a S' (C' & H1 & H2 & H3 & H4). apply H; auto. eapply cx_trans; eauto.
  - intros S'. now apply fpost_trans.
Qed.
Lemma tail_ T (I : Atoms T) b N i d e g (p : prog T) E S (Q : T -> gst -> Prop) :
  spec b N i d e g p -> cx E S -> m S < N ->
  (forall a S', cx E S' -> cx S S' -> m S' + d a <= m S -> nerr S + e a <= nerr S' -> AA S + g a <= AA S' + i -> Forall (ok b) (atoms a) ->
     Q a S') ->
  wp p Q (fpost E) S.
Proof.
  intros Hs C L H. eapply wp_conseq; [apply Hs; [apply C|exact L]| |].
  - intros a S' (C' & H1 & H2 & H3 & H4). apply H; auto. eapply cx_trans; eauto.
  - intros S'. now apply fpost_trans.
Qed.

(** ** Atoms *)
Lemma W_app a b : W (a ++ b) = W a + W b.
Proof. unfold W. now rewrite map_app, list_sum_app. Qed.
Lemma W_nil : W [] = 0.
Proof. reflexivity. Qed.
Lemma W_cons a l : W (a :: l) = wt a + W l.
Proof. reflexivity. Qed.
Lemma atoms_app T (I : Atoms T) (a b : list T) : @atoms _ (Atoms_list I) (a ++ b) = atoms a ++ atoms b.
Proof. apply flat_map_app. Qed.
Lemma atoms_cons T (I : Atoms T) (a : T) l : @atoms _ (Atoms_list I) (a :: l) = atoms a ++ atoms l.
Proof. reflexivity. Qed.
Lemma atoms_nil T (I : Atoms T) : @atoms _ (Atoms_list I) [] = [].
Proof. reflexivity. Qed.
Lemma W_span (s : span) : W (atoms s) = 0.
Proof. cbn. now rewrite wt_span. Qed.
Lemma W_used f x : W (used f x) = 0.
Proof. destruct x; try reflexivity; cbn; now rewrite wt_feature. Qed.
Lemma W_ident (s : ident) : W (atoms s) = 0.
Proof. cbn. now rewrite wt_ident. Qed.
Lemma W_sstring (s : sstring) : W (atoms s) = 0.
Proof. cbn. now rewrite wt_span, wt_leaf. Qed.
Lemma W_leaf l s : W [ALeaf l s] = 0.
Proof. cbn. now rewrite wt_leaf. Qed.
Lemma W_Nspan (p : N * span) : W (atoms p) = 0.
Proof. cbn. now rewrite wt_span, wt_leaf. Qed.
Lemma W_unit_span (p : time_unit * span) : W (atoms p) = 0.
Proof. cbn. now rewrite wt_span, wt_leaf. Qed.
Lemma W_type_leaf t s : W (type_leaf t s) = 0.
Proof. destruct t; try reflexivity; apply W_leaf. Qed.
Lemma W_tagged (s : tagged) : W (atoms s) = 0.
Proof. cbn. now rewrite wt_span, wt_leaf. Qed.
Lemma W_invalid (s : invalid) : W (atoms s) <= winv.
Proof. cbn. rewrite wt_span. pose proof (wt_inv (inv_span s)). lia. Qed.

(** ** Spans *)
Lemma inside_join a b : inside a -> inside b -> inside (join a b).
Proof.
  unfold inside, finally. destruct fin_issues as [f|]; [|auto]. intros [A1 A2] [B1 B2]. unfold join. cbn [fst snd]. split; [lia|].
  destruct A2 as [A2|[A2 A3]], B2 as [B2|[B2 B3]]; [left; lia|right|right|right]; (split; [lia|assumption]).
Qed.
Lemma wspan_join a b : wspan src a -> wspan src b -> wspan src (join a b).
Proof.
  intros [(L1 & B1 & B2) I1] [(L2 & B3 & B4) I2]. split; [|now apply inside_join]. unfold join. split; cbn [fst snd]; [lia|].
  split; [destruct (Nat.min_spec (fst a) (fst b)) as [[_ ->]|[_ ->]]; auto|
          destruct (Nat.max_spec (snd a) (snd b)) as [[_ ->]|[_ ->]]; auto].
Qed.
Lemma tok_at_wspan t s : tok_at t s -> wspan src s.
Proof. intros (_ & w & H & _). eapply wat_wspan; eauto. Qed.
Lemma wf_wspan S : wf S -> wspan src (sp S).
Proof. intros H. eapply tok_at_wspan, w_tok, H. Qed.
Lemma vspan_0 : vspan src (0, 0).
Proof. split; cbn; [lia|]. split; apply boundary_0. Qed.
(** The span of what could not be read. *)
Lemma wspan_0 S : compat S -> 0 < nerr S -> wspan src (0, 0).
Proof.
  intros C H. split; [apply vspan_0|]. pose proof (finally_error _ C H) as F. unfold inside, finally in *. destruct fin_issues as [f|]; [|auto].
  split; [cbn; lia|]. right. auto.
Qed.
(** A span between that of the current token and a later one. *)
Lemma inside_between a b s : inside a -> inside b -> fst a <= fst s -> snd s <= snd b -> lo <= fst a -> inside s.
Proof. unfold inside, finally. destruct fin_issues as [f|]; [|auto]. intros _ [B _] H1 H2 H3. split; [lia|]. left. lia. Qed.

(** ** Reading on *)
Lemma lex_step l : lwf l -> l_src l = src ->
  match next_token l with
  | LPanic w => pan w
  | LOk (t, s) l' => lwf l' /\ l_src l' = src /\ gap_at src (l_pos l) (fst s) /\ snd s = l_pos l' /\ tok_at0 t s /\
                     b2n (negb (is_eof t)) + length (l_rest l') <= length (l_rest l)
  end.
Proof.
  intros Hl E. pose proof (next_token_spec l Hl) as H.
  destruct (next_token l) as [[t s] l'|w].
  - destruct (token_at_facts _ _ _ _ Hl H) as (H1 & H2 & H3 & H4 & H5 & H6 & H7 & H8 & H9 & _).
    destruct (token_at_gap _ _ _ _ Hl H) as [G1 G2].
    rewrite E in *. split; [auto|]. split; [congruence|]. split; [auto|]. split; [auto|]. split; [split; [|auto]|].
    { intros Ee. destruct t; try discriminate. inversion H; subst; [congruence|cbn; now rewrite E]. }
    destruct (is_eof t) eqn:Et; cbn; [lia|]. assert (t <> TEof) by (intros ->; discriminate). specialize (H8 H0). lia.
  - rewrite E in H. destruct H as [[-> H]|[-> H]]; [now apply pan_hex|now apply pan_dollar].
Qed.
Lemma fst_le_snd t s : tok_at0 t s -> fst s <= snd s.
Proof. intros (_ & w & H & _). apply at_vspan in H. apply H. Qed.
Lemma wf_late S : wf S -> wfx true S.
Proof.
  intros []. constructor; auto. destruct w_log0 as (p & H1 & H2). exists p. split; [easy|].
  pose proof (fst_le_snd _ _ (tok_at_0 _ _ w_tok0)). lia.
Qed.
Lemma wf_lexical b S : wfx b S -> lexical (g_st S).
Proof.
  intros [w1 w2 w3 w4 w5 w6 w7 w8 w9 w10]. unfold lexical. pose proof (fst_le_snd _ _ (tok_at_0 _ _ w5)). unfold sp in *. split; [exact w1|]. split; [assumption|].
  destruct (s_peek (g_st S)) as [[t s]|]; [|lia]. destruct w7 as [w7 E]. pose proof (fst_le_snd _ _ w7). apply gap_at_le in w6. cbn [fst snd] in *. lia.
Qed.
(** The current token of a later state. *)
Lemma inside_next b S st' log : wfx b S -> moved (g_st S) st' -> compat (mkG st' log) -> inside (s_span st') /\ finally (fun _ => lo <= fst (s_span st')).
Proof.
  intros Hw M C. pose proof (w_lo _ _ Hw) as Lo. destruct (M (wf_lexical _ _ Hw)) as (L & P & _). unfold inside, compat, finally in *. destruct fin_issues as [f|]; [|auto].
  destruct C as [_ C]. specialize (C L). unfold sp in *. cbn in C. split; [split; [exact C|left]|]; lia.
Qed.
Lemma next_ok S : wfx true S ->
  match p_next (g_st S) with
  | XOk _ st' => compat (mkG st' (g_log S)) -> cx S (mkG st' (g_log S)) /\ m (mkG st' (g_log S)) + b2n (negb (is_eof (tk S))) <= m S /\
                 gap_at src (snd (sp S)) (fst (s_span st')) /\ s_peek st' = None /\ s_issues st' = s_issues (g_st S) /\ s_permit st' = s_permit (g_st S)
  | XPanic w => pan w
  | XFuel => False
  end.
Proof.
  intros H. assert (Nx : forall st', p_next (g_st S) = XOk tt st' -> compat (mkG st' (g_log S)) -> inside (s_span st') /\ finally (fun _ => lo <= fst (s_span st'))).
  { intros st' E. eapply inside_next; [exact H|]. now apply next_moved. }
  destruct S as [st log]. destruct H as [w1 w2 w3 w4 w5 w6 w7 w8 w9 w10 w11]. cbn [g_st g_log] in *. unfold tk, sp in *. cbn [g_st] in *.
  pose proof (fst_le_snd _ _ (tok_at_0 _ _ w5)) as Ls. unfold p_next in *. destruct (s_peek st) as [[t s]|] eqn:Ep.
  - destruct w7 as [P1 P2]. pose proof (fst_le_snd _ _ P1). cbn [fst] in *. pose proof (gap_at_le _ _ _ w6). intros K. destruct (Nx _ eq_refl K) as [In Lo]. cbn in In, Lo.
    split; [|unfold m, tk; cbn; rewrite Ep; cbn; repeat split; auto; lia].
    constructor; cbn; auto; unfold sp; cbn; try lia.
    + constructor; unfold tk, sp; cbn; auto; [now apply tok_at_is|]. destruct w9 as (q & L1 & L2). exists q. split; [auto|lia].
    + unfold m. cbn. rewrite Ep. lia.
    + exists []. now rewrite app_nil_r.
  - pose proof (lex_step _ w1 w2) as L. destruct (next_token (s_lex st)) as [[t s] l'|w]; [|exact L].
    destruct L as (L1 & L2 & L3 & L4 & L5 & L6). pose proof (fst_le_snd _ _ L5). pose proof (gap_at_le _ _ _ L3). intros K. destruct (Nx _ eq_refl K) as [In Lo]. cbn in In, Lo.
    split; [|unfold m, tk; cbn; rewrite Ep, w6; cbn; repeat split; auto; lia].
    constructor; cbn; auto; unfold sp; cbn; try lia.
    + constructor; unfold tk, sp; cbn; auto; [now apply tok_at_is|]. destruct w9 as (q & M1 & M2). exists q. split; [auto|lia].
    + unfold m. cbn. rewrite Ep. lia.
    + exists []. now rewrite app_nil_r.
Qed.
End Logic.
