(** Properties that follow from the structure of parser programs or from single functions:
    C02, C03, C14, C15, C19/C20 (up to slicing panics), C23, C24, C26, C38, C39, C43. *)
From Verif Require Export Generic Api Display.
Local Open Scope string_scope.
Local Open Scope list_scope.

(** ** C03: parsing only appends issues; C02: the new ones quote the source *)
Lemma api_grown A (p : prog A) src isrc issues o v out :
  match parser_new src isrc issues o with
  | XOk st _ => outcome_of (run p st) | XPanic w => Panics w | XFuel => NoFuel end = Returns v out ->
  exists new, out = issues ++ new /\ Forall (quotes_source isrc) new.
Proof.
  unfold parser_new. destruct (next_token _) as [[t s] l|]; [|discriminate]. intros H.
  match type of H with context[run p ?st] => pose proof (run_grown A p st) as G; destruct (run p st) as [a st'| | |] end;
    try discriminate.
  injection H as _ <-. destruct G as (_ & _ & _ & G). exact G.
Qed.

Theorem C03_statement_appends : forall src issues o r out,
  parse_statement_api src issues o = Returns r out -> exists new, out = issues ++ new.
Proof.
  intros src issues o r out H. apply api_grown in H as (new & E & _). eauto.
Qed.
Theorem C03_statements_append : forall src issues o r out,
  parse_statements src issues o = Returns r out -> exists new, out = issues ++ new.
Proof.
  intros src issues o r out H. apply api_grown in H as (new & E & _). eauto.
Qed.
Theorem C02_statement_segments : forall src issues o r out i,
  parse_statement_api src issues o = Returns r out ->
  In i (skipn (length issues) out) ->
  at_span src (i_span i) (i_segment i) /\
  forall f, In f (i_fragments i) -> at_span src (f_span f) (f_segment f).
Proof.
  intros src issues o r out i H I. apply api_grown in H as (new & -> & F).
  rewrite skipn_app, skipn_all, Nat.sub_diag in I. cbn in I. rewrite Forall_forall in F.
  destruct (F _ I) as [F1 F2]. rewrite Forall_forall in F2. auto.
Qed.
Theorem C02_statements_segments : forall src issues o r out i,
  parse_statements src issues o = Returns r out ->
  In i (skipn (length issues) out) ->
  at_span src (i_span i) (i_segment i) /\
  forall f, In f (i_fragments i) -> at_span src (f_span f) (f_segment f).
Proof.
  intros src issues o r out i H I. apply api_grown in H as (new & -> & F).
  rewrite skipn_app, skipn_all, Nat.sub_diag in I. cbn in I. rewrite Forall_forall in F.
  destruct (F _ I) as [F1 F2]. rewrite Forall_forall in F2. auto.
Qed.
(** A run that returns and adds an issue. *)
Example C02_applies : match parse_statement_api (txt "SELECT 1 + ; 2") [] default_options with
  | Returns _ [i] => i_segment i = txt ";" /\ i_span i = (11, 12) | _ => False end.
Proof. vm_compute. split; reflexivity. Qed.

(** ** C43: the result does not depend on earlier issues *)
Definition prepend {A} (old : list issue) (o : outcome A) : outcome A :=
  match o with Returns a i => Returns a (old ++ i) | Panics w => Panics w | NoFuel => NoFuel end.
Lemma api_prepend A (p : prog A) src isrc issues o :
  match parser_new src isrc issues o with
  | XOk st _ => outcome_of (run p st) | XPanic w => Panics w | XFuel => NoFuel end =
  prepend issues match parser_new src isrc [] o with
  | XOk st _ => outcome_of (run p st) | XPanic w => Panics w | XFuel => NoFuel end.
Proof.
  unfold parser_new. destruct (next_token _) as [[t s] l|]; [|easy].
  pose proof (run_add A p issues (mkPst l t s None isrc [] 0 TSemiColon o false)) as R.
  unfold add_issues, set_issues in R. cbn in R. rewrite app_nil_r in R. rewrite R.
  clear R. match goal with |- context[run p ?x] => destruct (run p x) end; reflexivity.
Qed.
Theorem C43_statement_independent : forall src issues o,
  parse_statement_api src issues o = prepend issues (parse_statement_api src [] o).
Proof. intros. apply api_prepend. Qed.
Theorem C43_statements_independent : forall src issues o,
  parse_statements src issues o = prepend issues (parse_statements src [] o).
Proof. intros. apply api_prepend. Qed.

(** ** C24: joining spans *)
(** [s] contains [t]. *)
Definition covers (s t : span) : Prop := fst s <= fst t /\ snd t <= snd s.
Theorem C24_join_is_hull : forall a b,
  covers (join a b) a /\ covers (join a b) b /\
  forall s, covers s a -> covers s b -> covers s (join a b).
Proof. intros [a1 a2] [b1 b2]. unfold covers, join. cbn. repeat split; try lia; intros; cbn in *; lia. Qed.
Theorem C24_join_comm_assoc_idem : forall a b c,
  join a b = join b a /\ join a (join b c) = join (join a b) c /\ join a a = a.
Proof. intros [a1 a2] [b1 b2] [c1 c2]. unfold join. cbn. repeat split; f_equal; lia. Qed.
(** A missing span does not contribute. *)
Theorem C24_optional : forall a b, joino a None = a /\ joino a (Some b) = join a b /\
  ojoin None (Some b) = Some b /\ ojoin (Some a) None = Some a /\ ojoin (Some a) (Some b) = Some (join a b) /\
  ojoin None None = None.
Proof. easy. Qed.
Lemma oconcat_cover l : forall acc, match fold_left ojoin l acc with
  | Some h => (forall s, acc = Some s \/ In (Some s) l -> covers h s) /\
              (forall k, (forall s, acc = Some s \/ In (Some s) l -> covers k s) -> covers k h)
  | None => acc = None /\ forall s, ~ In (Some s) l
  end.
Proof.
  induction l as [|x l IH]; intros acc; cbn [fold_left].
  - destruct acc as [a|]; cbn; [|now split]. split.
    + intros s [H|[]]. injection H as <-. unfold covers. lia.
    + intros k H. apply H. now left.
  - specialize (IH (ojoin acc x)). destruct (fold_left ojoin l (ojoin acc x)) as [h|].
    + destruct IH as [I1 I2].
      assert (Hj : forall a b, ojoin (Some a) (Some b) = Some (join a b)) by easy.
      split.
      * intros s [->|[->|H]]; [| |auto].
        -- destruct x as [y|]; [|apply I1; now left].
           specialize (I1 _ (or_introl eq_refl)). destruct (C24_join_is_hull s y) as (A & _).
           unfold covers, joino, join in *. cbn [fst snd] in *. lia.
        -- destruct acc as [a|]; [|apply I1; now left].
           specialize (I1 _ (or_introl eq_refl)). destruct (C24_join_is_hull a s) as (_ & A & _).
           unfold covers, joino, join in *. cbn [fst snd] in *. lia.
      * intros k H. apply I2. intros s [E|E]; [|apply H; right; now right].
        destruct acc as [a|], x as [y|]; cbn in E; try discriminate; injection E as <-.
        -- apply C24_join_is_hull; apply H; auto. right; now left.
        -- apply H; auto.
        -- apply H. right; now left.
    + destruct IH as [I1 I2]. destruct acc as [a|], x as [y|]; try discriminate.
      split; [easy|]. intros s [H|H]; [discriminate|]. now apply (I2 s).
Qed.
(** The span of a list is the hull of its members; it exists iff a member has one. *)
Theorem C24_list_is_hull : forall l, match oconcat l with
  | Some h => (forall s, In (Some s) l -> covers h s) /\
              (forall k, (forall s, In (Some s) l -> covers k s) -> covers k h) /\ exists s, In (Some s) l
  | None => forall s, ~ In (Some s) l
  end.
Proof.
  intros l. pose proof (oconcat_cover l None) as H. unfold oconcat.
  destruct (fold_left ojoin l None) as [h|] eqn:E; [|easy]. destruct H as [H1 H2]. split; [|split].
  - auto.
  - intros k Hk. apply H2. intros s [Hs|Hs]; [discriminate|auto].
  - assert (N : (forall s, ~ In (Some s) l) -> forall acc, fold_left ojoin l acc = acc).
    { clear. induction l as [|x l IH]; intros N acc; [easy|]. cbn. rewrite IH.
      - destruct x as [y|]; [exfalso; apply (N y); now left|]. now destruct acc.
      - intros s I. apply (N s). now right. }
    clear H1 H2. assert (D : (exists s, In (Some s) l) \/ forall s, ~ In (Some s) l).
    { clear. induction l as [|[x|] l IH]; [right; easy|left; exists x; now left|].
      destruct IH as [(s & I)|I]; [left; exists s; now right|right]. intros s [H|H]; [discriminate|eapply I; eauto]. }
    destruct D as [D|D]; [exact D|]. rewrite (N D) in E. discriminate.
Qed.
(** Hence independent of the order of the members. *)
Theorem C24_list_order_irrelevant : forall l l', (forall x, In x l <-> In x l') -> oconcat l = oconcat l'.
Proof.
  intros l l' H. pose proof (C24_list_is_hull l) as A. pose proof (C24_list_is_hull l') as B.
  destruct (oconcat l) as [h|], (oconcat l') as [h'|]; [| | |easy].
  - destruct A as (A1 & A2 & _), B as (B1 & B2 & _).
    assert (C1 : covers h h') by (apply B2; intros s I; apply A1, H; exact I).
    assert (C2 : covers h' h) by (apply A2; intros s I; apply B1, H; exact I).
    destruct h, h'. unfold covers in *. cbn in *. do 2 f_equal; lia.
  - destruct A as (_ & _ & s & I). exfalso. apply (B s), H, I.
  - destruct B as (_ & _ & s & I). exfalso. apply (A s), H, I.
Qed.

(** ** C39: option builders *)
Theorem C39_defaults :
  o_dialect default_options = MariaDB /\ o_arguments default_options = ArgNone /\
  o_warn_unquoted default_options = false /\ o_warn_caps default_options = false /\
  o_list_hack default_options = false.
Proof. easy. Qed.
(** Each method sets its own option and leaves the other four alone. *)
Theorem C39_each_sets_its_own : forall o d a u c h,
  (o_dialect (opt_dialect d o) = d /\ o_arguments (opt_dialect d o) = o_arguments o /\
   o_warn_unquoted (opt_dialect d o) = o_warn_unquoted o /\ o_warn_caps (opt_dialect d o) = o_warn_caps o /\
   o_list_hack (opt_dialect d o) = o_list_hack o) /\
  (o_dialect (opt_arguments a o) = o_dialect o /\ o_arguments (opt_arguments a o) = a /\
   o_warn_unquoted (opt_arguments a o) = o_warn_unquoted o /\ o_warn_caps (opt_arguments a o) = o_warn_caps o /\
   o_list_hack (opt_arguments a o) = o_list_hack o) /\
  (o_dialect (opt_warn_unquoted u o) = o_dialect o /\ o_arguments (opt_warn_unquoted u o) = o_arguments o /\
   o_warn_unquoted (opt_warn_unquoted u o) = u /\ o_warn_caps (opt_warn_unquoted u o) = o_warn_caps o /\
   o_list_hack (opt_warn_unquoted u o) = o_list_hack o) /\
  (o_dialect (opt_warn_caps c o) = o_dialect o /\ o_arguments (opt_warn_caps c o) = o_arguments o /\
   o_warn_unquoted (opt_warn_caps c o) = o_warn_unquoted o /\ o_warn_caps (opt_warn_caps c o) = c /\
   o_list_hack (opt_warn_caps c o) = o_list_hack o) /\
  (o_dialect (opt_list_hack h o) = o_dialect o /\ o_arguments (opt_list_hack h o) = o_arguments o /\
   o_warn_unquoted (opt_list_hack h o) = o_warn_unquoted o /\ o_warn_caps (opt_list_hack h o) = o_warn_caps o /\
   o_list_hack (opt_list_hack h o) = h).
Proof. intros. repeat split. Qed.
(** Two option values with the same five fields are equal, so the above determines them:
    e.g. calls of different methods commute and the last call of one method wins. *)
Theorem C39_extensional : forall o o', o_dialect o = o_dialect o' -> o_arguments o = o_arguments o' ->
  o_warn_unquoted o = o_warn_unquoted o' -> o_warn_caps o = o_warn_caps o' -> o_list_hack o = o_list_hack o' -> o = o'.
Proof. intros [] []; cbn; congruence. Qed.
Theorem C39_commute_and_last_wins : forall o d d' a a' u u' c c' h h',
  opt_dialect d (opt_dialect d' o) = opt_dialect d o /\
  opt_arguments a (opt_arguments a' o) = opt_arguments a o /\
  opt_warn_unquoted u (opt_warn_unquoted u' o) = opt_warn_unquoted u o /\
  opt_warn_caps c (opt_warn_caps c' o) = opt_warn_caps c o /\
  opt_list_hack h (opt_list_hack h' o) = opt_list_hack h o /\
  opt_dialect d (opt_arguments a o) = opt_arguments a (opt_dialect d o) /\
  opt_dialect d (opt_warn_unquoted u o) = opt_warn_unquoted u (opt_dialect d o) /\
  opt_dialect d (opt_warn_caps c o) = opt_warn_caps c (opt_dialect d o) /\
  opt_dialect d (opt_list_hack h o) = opt_list_hack h (opt_dialect d o) /\
  opt_arguments a (opt_warn_unquoted u o) = opt_warn_unquoted u (opt_arguments a o) /\
  opt_arguments a (opt_warn_caps c o) = opt_warn_caps c (opt_arguments a o) /\
  opt_arguments a (opt_list_hack h o) = opt_list_hack h (opt_arguments a o) /\
  opt_warn_unquoted u (opt_warn_caps c o) = opt_warn_caps c (opt_warn_unquoted u o) /\
  opt_warn_unquoted u (opt_list_hack h o) = opt_list_hack h (opt_warn_unquoted u o) /\
  opt_warn_caps c (opt_list_hack h o) = opt_list_hack h (opt_warn_caps c o).
Proof. intros. repeat split. Qed.

(** ** C14 / C15: decoding of string literals *)
Lemma contains_spec c t : contains c t = true <-> In c t.
Proof.
  unfold contains. rewrite existsb_exists. split.
  - intros (x & I & E). apply N.eqb_eq in E. now subst.
  - intros I. exists c. split; [easy|apply N.eqb_refl].
Qed.
Lemma double_id q t : ~ In q t -> double q t = t.
Proof.
  induction t as [|c t IH]; cbn; [easy|]. intros N. destruct (N.eqb_spec c q); [exfalso; auto|]. f_equal. auto.
Qed.
Lemma double_in q t c : In c (double q t) <-> In c t.
Proof.
  induction t as [|d t IH]; cbn; [easy|]. destruct (N.eqb_spec d q) as [->|]; cbn; rewrite IH; tauto.
Qed.
Lemma decode_double_loop t : decode_loop (double 39 t) = t.
Proof.
  induction t as [|c t IH]; [easy|]. cbn. destruct (N.eqb_spec c 39) as [->|D]; cbn.
  - now rewrite IH.
  - apply N.eqb_neq in D. now rewrite D, IH.
Qed.
(** The SQL value of a single-quoted literal. *)
Theorem C14_decode_single : forall t, decode_single_quoted_string (double 39 t) = t.
Proof.
  intros t. unfold decode_single_quoted_string.
  destruct (negb _ && negb _) eqn:E; [|apply decode_double_loop].
  apply andb_true_iff in E as [E _]. apply negb_true_iff in E. apply double_id. intros I.
  apply (double_in 39 t), contains_spec in I. congruence.
Qed.
(** A literal at the parser's current position is consumed as its SQL value: the string
    returned is the text whose doubled form stands between the quotes, with the literal's
    span, when no other literal follows. *)
Theorem C14_consumed_value : forall n t st st',
  s_tok st = TSingleQuotedString (double 39 t) ->
  p_next st = XOk tt st' -> string_token (s_tok st') = None ->
  run (consume_string (S n)) st = ROk (mkSString t (s_span st)) st'.
Proof.
  intros n t st st' Ht Hn Hs. unfold consume_string. cbn [token perf bind run exec].
  rewrite Ht. cbn [string_token bind run]. rewrite C14_decode_single.
  cbn [consume cur_span next perf bind run exec]. rewrite Hn. cbn [loop token perf bind run exec].
  rewrite Hs. reflexivity.
Qed.
Theorem C14_decode_single_id : forall t, ~ In 39%N t -> ~ In 92%N t -> decode_single_quoted_string t = t.
Proof.
  intros t N1 N2. rewrite <- (double_id 39 t N1) at 1. apply C14_decode_single.
Qed.

(** C15 is false of the code: the decoder of double-quoted strings undoubles single quotes. *)
Theorem C15_refuted : exists t, decode_double_quoted_string (double 34 t) <> t.
Proof. exists [34%N]. vm_compute. discriminate. Qed.
(** It fails for every text with a double quote but without single quotes and backslashes:
    the quotes stay doubled. *)
Theorem C15_never_undoubled : forall t, In 34%N t -> ~ In 39%N t ->
  decode_double_quoted_string (double 34 t) = double 34 t.
Proof.
  intros t I N. unfold decode_double_quoted_string.
  replace (contains 34 (double 34 t)) with true by (symmetry; apply contains_spec, double_in, I). cbn.
  assert (G : forall t, ~ In 39%N t -> decode_loop t = t).
  { clear. induction t as [|c t IH]; intros N; cbn; [easy|]. destruct (N.eqb_spec c 39) as [->|_]; [exfalso; apply N; now left|].
    f_equal. apply IH. intros H; apply N; now right. }
  apply G. now rewrite double_in.
Qed.
(** What does hold: texts without quotes and backslashes are returned as they are. *)
Theorem C15_plain_partial : forall t, ~ In 34%N t -> ~ In 92%N t -> decode_double_quoted_string (double 34 t) = t.
Proof.
  intros t N1 N2. rewrite (double_id 34 t N1). unfold decode_double_quoted_string.
  replace (contains 34 t) with false by (symmetry; apply not_true_is_false; now rewrite contains_spec).
  replace (contains 92 t) with false by (symmetry; apply not_true_is_false; now rewrite contains_spec). easy.
Qed.

(** ** C23: integer literals *)
(** When the current token is an integer literal, the value returned is its decimal value
    and no issue is added, if it fits; otherwise exactly one Error is added, at the literal. *)
Theorem C23_exact_or_error : forall max v st st',
  s_tok st = TInteger v -> p_next st = XOk tt st' ->
  if (dec_value v <=? max)%N
  then run (consume_int max) st = ROk (dec_value v, s_span st) st'
  else match slice (s_isrc st) (fst (s_span st)) (snd (s_span st)) with
       | Some seg => run (consume_int max) st =
           ROk (0%N, s_span st) (set_issues st' (s_issues st' ++ [mkIssue Error (txt "integer outside range") (s_span st) seg []]))
       | None => run (consume_int max) st = RPanic PBadSlice
       end.
Proof.
  intros max v st st' Ht Hn. unfold consume_int. cbn [token perf bind run exec]. rewrite Ht.
  change (digits_value v) with (dec_value v). destruct (dec_value v <=? max)%N.
  - cbn [bind consume cur_span next perf run exec]. now rewrite Hn.
  - cbn [bind cur_span perf run exec err err_frags]. unfold p_issue. cbn [build_frags].
    destruct (slice _ _ _) as [seg|]; [|easy]. cbn [bind consume cur_span next perf run exec].
    assert (E : forall i, p_next (set_issues st i) = match p_next st with XOk x st' => XOk x (set_issues st' i) | r => r end).
    { intros i. unfold p_next. cbn. destruct (s_peek st) as [[? ?]|]; [easy|]. destruct (next_token _) as [[? ?] ?|]; easy. }
    rewrite E, Hn. cbn. do 2 f_equal. pose proof (p_next_grown _ _ Hn) as (_ & _ & _ & new & En & _).
    assert (s_issues st' = s_issues st).
    { unfold p_next in Hn. destruct (s_peek st) as [[? ?]|]; [injection Hn as <-; easy|].
      destruct (next_token _) as [[? ?] ?|]; [injection Hn as <-; easy|discriminate]. }
    now rewrite H.
Qed.
(** The value is the usual one: appending a digit multiplies by ten and adds it. *)
Theorem C23_decimal : forall v d, dec_value [] = 0%N /\ dec_value (v ++ [d]) = (10 * dec_value v + (d - 48))%N.
Proof. intros v d. split; [easy|]. unfold dec_value. rewrite fold_left_app. cbn [fold_left]. lia. Qed.

(** ** C26: displayed line numbers *)
(** The line printed for an issue is one plus the number of newlines before it. *)
Theorem C26_line : forall pre post, line_of (pre ++ post) (blen pre) = Some (1 + count_occ N.eq_dec pre 10%N).
Proof.
  intros pre post. unfold line_of.
  pose proof (slice_app [] pre post) as S. cbn [app blen] in S. rewrite Nat.add_0_l in S. rewrite S. cbn. do 2 f_equal.
  clear. induction pre as [|c r IH]; [easy|]. cbn. destruct (N.eqb_spec c 10), (N.eq_dec c 10); try contradiction; cbn; now rewrite IH.
Qed.
(** Issues that quote the source (as all added by parsing do) can always be displayed. *)
Theorem C26_display_never_panics : forall src l, Forall (quotes_source src) l -> exists t, show_issues src l = Some t.
Proof.
  intros src l F.
  assert (Ln : forall s w, at_span src s w -> exists n, line_of src (fst s) = Some n).
  { intros s w (pre & post & -> & E & _). rewrite E. eexists. apply C26_line. }
  assert (Fr : forall fs, Forall (fun f => at_span src (f_span f) (f_segment f)) fs ->
     exists t, concat_opt (map (show_fragment src) fs) = Some t).
  { induction 1 as [|f fs Hf _ (t & IH)]; cbn; [eauto|]. unfold show_fragment at 1.
    destruct (Ln _ _ Hf) as (n & ->). cbn. rewrite IH. cbn. eauto. }
  assert (G : exists t, concat_opt (map (show_issue src) l) = Some t).
  { induction F as [|i l (Hi & Hf) _ (t & IH)]; cbn; [eauto|]. unfold show_issue at 1.
    destruct (Ln _ _ Hi) as (n & ->), (Fr _ Hf) as (t' & ->). cbn. rewrite IH. cbn. eauto. }
  destruct G as (t & G). unfold show_issues. destruct l; [eauto|]. rewrite G. cbn. eauto.
Qed.
(** What is printed for an issue without fragments: its level, message, line and text. *)
Theorem C26_printed : forall pre w post lv m, show_issue (pre ++ w ++ post) (mkIssue lv m (blen pre, blen pre + blen w) w []) =
  Some (txt (match lv with Warning => "  Warning " | Error => "  Error " end) ++ m ++ [10%N] ++
        txt "    At line " ++ show_nat (1 + count_occ N.eq_dec pre 10%N) ++ txt ", code " ++ w ++ [10%N]).
Proof. intros. unfold show_issue. cbn [i_span fst i_fragments map concat_opt]. rewrite C26_line. reflexivity. Qed.
(** The number printed is the decimal representation of the line. *)
Theorem C26_number : forall v, dec_value (show_nat v) = N.of_nat v /\ Forall (fun c => 48 <= c <= 57)%N (show_nat v) /\
  (v <> 0 -> hd 0%N (show_nat v) <> 48%N).
Proof.
  intros v.
  assert (G : forall n x, (x < N.of_nat n)%N -> dec_value (dec_digits n x) = x /\
    Forall (fun c => 48 <= c <= 57)%N (dec_digits n x) /\ (x <> 0 -> hd 0 (dec_digits n x) <> 48)%N /\ dec_digits n x <> []).
  { induction n as [|n IH]; intros x Hx; [lia|]. cbn [dec_digits]. destruct (N.ltb_spec x 10) as [L|L].
    - split; [unfold dec_value; cbn [fold_left]; lia|]. split; [constructor; [lia|constructor]|]. split; [cbn; lia|discriminate].
    - assert (D : (x / 10 < x)%N) by (apply N.div_lt; lia).
      assert (M : (x mod 10 < 10)%N) by (apply N.mod_lt; lia).
      pose proof (N.div_mod x 10 ltac:(lia)) as E.
      destruct (IH (x / 10)%N ltac:(lia)) as (I1 & I2 & I3 & I4).
      split; [|split; [|split]].
      + rewrite (proj2 (C23_decimal _ _)), I1, N.add_sub. symmetry. exact E.
      + apply Forall_app. split; [exact I2|]. constructor; [clear - M; revert M; generalize (x mod 10)%N; intros; lia|constructor].
      + intros _. destruct (dec_digits n (x / 10)); [congruence|]. cbn [app hd] in *. apply I3.
        intros Z. rewrite Z in E. lia.
      + intros Z. apply app_eq_nil in Z as [_ Z]. discriminate. }
  destruct (G (S v) (N.of_nat v) ltac:(lia)) as (G1 & G2 & G3 & _). split; [exact G1|]. split; [exact G2|].
  intros H. apply G3. lia.
Qed.
(** [is_ok] says exactly that nothing was reported. *)
Theorem C26_is_ok : forall l, issues_ok l = true <-> l = [].
Proof. intros [|i l]; cbn; split; easy. Qed.
Example C26_applies : show_issues (txt "a" ++ [10%N] ++ txt "b") [mkIssue Error (txt "m") (2, 3) (txt "b") []] =
  Some (txt "Issues:" ++ [10%N] ++ txt "  Error m" ++ [10%N] ++ txt "    At line 2, code b" ++ [10%N]).
Proof. vm_compute. reflexivity. Qed.

(** ** C38: identifiers *)
Lemma text_cmp_eq a b : text_cmp a b = Eq <-> a = b.
Proof.
  revert b. induction a as [|x a IH]; intros [|y b]; cbn; try easy.
  destruct (N.compare_spec x y) as [->|H|H]; [rewrite IH; split; congruence| |]; (split; [easy|]; intros E; injection E as -> _; lia).
Qed.
Lemma text_cmp_antisym a b : text_cmp b a = CompOpp (text_cmp a b).
Proof.
  revert b. induction a as [|x a IH]; intros [|y b]; cbn; try easy.
  rewrite N.compare_antisym. destruct (x ?= y)%N; cbn; auto.
Qed.
Lemma text_cmp_trans a b c : text_cmp a b = Lt -> text_cmp b c = Lt -> text_cmp a c = Lt.
Proof.
  revert b c. induction a as [|x a IH]; intros [|y b] [|z c]; cbn; try easy.
  destruct (N.compare_spec x y) as [H|H|H]; try easy; destruct (N.compare_spec y z) as [H'|H'|H']; try easy;
    destruct (N.compare_spec x z); try easy; try lia. eauto.
Qed.
Theorem C38_eq_ignores_span : forall a b, ident_eq a b = true <-> id_value a = id_value b.
Proof. intros. apply text_eqb_eq. Qed.
Theorem C38_order_total_and_consistent : forall a b c,
  (ident_cmp a b = Eq <-> ident_eq a b = true) /\
  ident_cmp b a = CompOpp (ident_cmp a b) /\
  (ident_cmp a b = Lt -> ident_cmp b c = Lt -> ident_cmp a c = Lt) /\
  ident_partial_cmp a b = Some (ident_cmp a b).
Proof.
  intros a b c. split; [|split; [|split]].
  - unfold ident_cmp. now rewrite text_cmp_eq, C38_eq_ignores_span.
  - apply text_cmp_antisym.
  - apply text_cmp_trans.
  - easy.
Qed.
(** Comparing identifiers is comparing the borrowed texts, wherever they stand. *)
Theorem C38_borrow_consistent : forall v w s s' t t',
  ident_eq (mkIdent v s) (mkIdent w t) = text_eqb (ident_borrow (mkIdent v s')) (ident_borrow (mkIdent w t')) /\
  ident_cmp (mkIdent v s) (mkIdent w t) = text_cmp (ident_borrow (mkIdent v s')) (ident_borrow (mkIdent w t')).
Proof. easy. Qed.
Example C38_applies : ident_cmp (mkIdent (txt "a") (5, 6)) (mkIdent (txt "ab") (0, 2)) = Lt /\
  ident_eq (mkIdent (txt "a") (5, 6)) (mkIdent (txt "a") (0, 1)) = true.
Proof. easy. Qed.
