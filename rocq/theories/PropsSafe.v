(** Safety properties of the entry points, for all inputs: C01, C04-C08, C11-C13, C29, C36,
    and the part of C30 about the returned AST. *)
From Verif Require Export SafeTop PropsBasic.
Local Open Scope string_scope.
Local Open Scope list_scope.

(** ** The panics that remain *)
Definition remaining_panic (src : text) (w : panic) : Prop :=
  (w = PHexLiteral /\ has_hex src) \/ (w = PDollarOverflow /\ has_big_dollar src) \/
  (w = PSpanOfBlock /\ has_word src "BEGIN" /\ has_word src "WITH").

(** Whether a word occurs is decidable. *)
Definition word_at (k : string) (t : text) : bool := prefixb (txt k) (upper t).
Fixpoint has_wordb (k : string) (t : text) : bool :=
  match t with [] => word_at k [] | _ :: r => word_at k t || has_wordb k r end.
Lemma prefixb_app p t : prefixb p t = true <-> exists r, t = p ++ r.
Proof.
  revert t. induction p as [|c p IH]; intros [|d t]; cbn; try (split; [eauto|easy]).
  - split; [discriminate|intros [r H]; discriminate].
  - rewrite andb_true_iff, N.eqb_eq, IH. split.
    + intros [-> [r ->]]. eauto.
    + intros [r H]. injection H as -> ->. eauto.
Qed.
Lemma upper_app a b : upper (a ++ b) = upper a ++ upper b.
Proof. apply map_app. Qed.
Lemma word_at_spec k t : word_at k t = true <-> exists v post, t = v ++ post /\ upper v = txt k.
Proof.
  unfold word_at. rewrite prefixb_app. split.
  - intros [r H]. exists (firstn (length (txt k)) t), (skipn (length (txt k)) t). split; [now rewrite firstn_skipn|].
    unfold upper in *. rewrite <- firstn_map, H, firstn_app, firstn_all, Nat.sub_diag. cbn. now rewrite app_nil_r.
  - intros (v & post & -> & E). exists (upper post). now rewrite upper_app, E.
Qed.
Lemma has_wordb_spec k t : has_wordb k t = true <-> has_word t k.
Proof.
  induction t as [|c t IH]; cbn [has_wordb].
  - rewrite word_at_spec. split.
    + intros (v & post & E & H). exists [], v, post. auto.
    + intros (pre & v & post & E & H). destruct pre; [|discriminate]. exists v, post. auto.
  - rewrite orb_true_iff, word_at_spec, IH. split.
    + intros [(v & post & E & H)|(pre & v & post & E & H)].
      * exists [], v, post. auto.
      * exists (c :: pre), v, post. rewrite E. auto.
    + intros (pre & v & post & E & H). destruct pre as [|x pre]; [left; exists v, post; auto|right]. injection E as <- E. exists pre, v, post. auto.
Qed.

(** ** The environment for a source, given weights *)
Section Env.
Variables (fn : option (list issue)) (lo' hi' : nat) (sr : text) (o : options) (wt' : atom -> nat) (winv' : nat) (cr' : nat -> list (N * span) -> nat).
Record weights : Prop := {
  h_span : forall s, wt' (ASpan s) = 0;
  h_ident : forall v s, wt' (AIdent v s) = 0;
  h_text : forall v s, wt' (AText v s) = 0;
  h_empty : forall w, wt' (AEmpty w) = 0;
  h_leaf : forall l s, wt' (ALeaf l s) = 0;
  h_feature : forall f s, wt' (AFeature f s) = 0;
  h_inv : forall s, wt' (AInvalid s) <= winv';
  h_dollar : forall n s ds, at_span sr s (36%N :: ds) -> wt' (AArg n s) = 0;
  h_mono : forall n n' l l', n <= n' -> cr' n l <= cr' n' (l ++ l');
  h_err : forall n n' l l', n < n' -> cr' n l + winv' <= cr' n' (l ++ l');
  h_arg : forall n n' l k s, n <= n' -> cr' n l + wt' (AArg k s) <= cr' n' (l ++ [(k, s)]) }.
Hypothesis H : weights.
Definition env_of : env.
Proof.
  refine (mkEnv sr o (has_wordb "BEGIN" sr) (remaining_panic sr) fn lo' hi' wt' winv' cr' _ _ _ _ _ _ _ _ _ _ _ _ _ _ _); try apply H.
  - intros X. left. auto.
  - intros X. right. left. auto.
  - intros X1 X2. right. right. apply has_wordb_spec in X1. auto.
  - intros X. now apply has_wordb_spec.
Defined.
End Env.

(** ** What the logic says about the entry points *)
(** The window is the whole source. *)
Definition wide {V : env} : Prop := finally (fun _ => lo = 0 /\ hi = blen src).
Lemma at_vspan_le {V : env} t s : tok_at0 t s -> snd s <= blen src.
Proof. intros (_ & w & (p & q & E & E1 & E2) & _). rewrite E, !blen_app. lia. Qed.
Lemma init_wf {V : env} : wide ->
  match parser_new src src [] opts with
  | XOk st _ => wf (mkG st []) /\ m (mkG st []) <= length src /\ nerr (mkG st []) = 0 /\ dlive (mkG st [])
  | XPanic w => pan w
  | XFuel => False
  end.
Proof.
  intros Wd. unfold parser_new. assert (L : lwf (lex_new src)) by (exists []; split; reflexivity).
  pose proof (lex_step _ L eq_refl) as X. destruct (next_token (lex_new src)) as [[t s] l'|w]; [|exact X].
  destruct X as (X1 & X2 & X3 & X4 & X5 & X6). cbn [l_rest lex_new] in X6. split; [|split; [unfold m, tk; cbn; lia|split; reflexivity]].
  assert (In : inside s /\ finally (fun _ => lo <= fst s)).
  { unfold wide, inside, finally in *. destruct fin_issues; [|auto]. destruct Wd as [-> ->]. pose proof (at_vspan_le _ _ X5). split; [split; [assumption|left; lia]|lia]. }
  destruct In as [In Lo]. constructor; unfold tk, sp; cbn; auto; [now apply tok_at_is|]. exists 0. split; [constructor|lia].
Qed.
Record safe {V : env} {A : Type} {I : Atoms A} (a : A) (out : list issue) (log : list (N * span)) : Prop := {
  f_atoms : Forall (ok nb) (atoms a);
  f_w : cr 0 [] + gW a <= cr (nerrs out) log;
  f_log : exists p, log_ok src opts log p;
  f_issues : Forall good_issue out }.
(** The issues the environment speaks of, if it does, are those at the end. *)
Definition ends_with {V : env} (out : list issue) : Prop := finally (fun f => f = out /\ lo = 0 /\ hi = blen src).
Lemma ends_wide {V : env} out : ends_with out -> wide.
Proof. unfold ends_with, wide, finally. destruct fin_issues; tauto. Qed.
Lemma lexical_end {V : env} S : l_src (s_lex (g_st S)) = src -> lexical (g_st S) -> snd (sp S) <= blen src.
Proof.
  intros E ((p & Ep & Lp) & _ & P). rewrite E in Ep. apply (f_equal blen) in Ep. rewrite blen_app in Ep. unfold sp.
  destruct (s_peek (g_st S)) as [[t s]|]; lia.
Qed.
Lemma ends_compat {V : env} A (p : prog A) S a S' : wf S -> rung p S = GOk a S' -> ends_with (s_issues (g_st S')) -> compat S'.
Proof.
  intros Hw R. pose proof (run_grown _ p (g_st S)) as G. rewrite rung_run, R in G. cbn [forget] in G. destruct G as (_ & _ & E & _).
  rewrite (w_src _ _ Hw) in E. unfold ends_with, compat, finally. destruct fin_issues; [|auto]. intros (-> & _ & ->).
  split; [exists []; now rewrite app_nil_r|]. now apply lexical_end.
Qed.
(** The parser state in which [parse_statement] and [parse_statements] end. *)
Definition final_state {A} (p : recs -> prog A) (src : text) (o : options) : option pst :=
  match parser_new src src [] o with
  | XOk st _ => match run (p (knot (budget src))) st with ROk _ st' => Some st' | _ => None end
  | _ => None
  end.
(** The log of the numbered arguments. *)
Definition final_log {A} (p : recs -> prog A) (src : text) (o : options) : list (N * span) :=
  match parser_new src src [] o with
  | XOk st _ => match rung (p (knot (budget src))) (mkG st []) with GOk _ S' => g_log S' | _ => [] end
  | _ => []
  end.
Lemma statement_safe {V : env} : wide ->
  match parse_statement_api src [] opts with
  | Returns s out => ends_with out -> safe s out (final_log parse_statement_body src opts) /\
      (exists st, final_state parse_statement_body src opts = Some st /\
         match s with None => 0 < nerrs out | Some _ => 0 < nerrs out \/ (s_tok st = TEof /\ fst (s_span st) = blen src) end)
  | Panics w => fin_issues = None -> pan w
  | NoFuel => fin_issues <> None
  end.
Proof.
  unfold parse_statement_api, parse_statement_n, final_state, final_log. intros Wd. pose proof (init_wf Wd) as X.
  destruct (parser_new src src [] opts) as [st _x|w|]; auto. destruct X as (Hw & Hm & He & Hd).
  pose proof (rung_run _ (parse_statement_body (knot (budget src))) (mkG st [])) as R. cbn [g_st] in R. rewrite R. clear R.
  pose proof (statement_body_wp (knot (budget src)) (mkG st []) Hw) as H. rewrite r_n_knot in H. unfold budget in H at 1. specialize (H ltac:(lia)).
  pose proof (statement_body_nf (knot (budget src)) (mkG st [])) as N. unfold wp in H.
  destruct (rung (parse_statement_body (knot (budget src))) (mkG st [])) as [a S'|S'|w|] eqn:Rg; cbn [forget outcome_of]; auto.
  - intros Z. apply (ends_compat _ _ _ _ _ Hw Rg) in Z. destruct (H Z) as (C & A1 & O1 & T1). pose proof (c_wf _ _ C) as W'.
    split.
    + constructor; auto.
      * unfold AA in A1. rewrite He in A1. exact A1.
      * destruct (w_log _ _ W') as (p & L & _). eauto.
      * apply (w_issues _ _ W').
    + exists (g_st S'). split; [reflexivity|]. rewrite He in T1. destruct a; [|exact T1]. destruct T1 as [T1|T1]; [now left|right].
      split; [unfold tk in T1; destruct (s_tok (g_st S')); easy|]. destruct (w_tok _ _ W') as (T & _). now apply T.
  - now destruct (N S').
Qed.
Lemma statements_safe {V : env} : wide ->
  match parse_statements src [] opts with
  | Returns s out => ends_with out -> safe s out (final_log parse_statements_loop src opts) /\
      (exists st, final_state parse_statements_loop src opts = Some st /\ s_tok st = TEof /\ fst (s_span st) = blen src)
  | Panics w => fin_issues = None -> pan w
  | NoFuel => fin_issues = None -> delimiter_at_end src
  end.
Proof.
  unfold parse_statements, parse_statements_n, final_state, final_log. intros Wd. pose proof (init_wf Wd) as X.
  destruct (parser_new src src [] opts) as [st _x|w|]; auto; [|easy]. destruct X as (Hw & Hm & He & Hd).
  pose proof (rung_run _ (parse_statements_loop (knot (budget src))) (mkG st [])) as R. cbn [g_st] in R. rewrite R. clear R.
  pose proof (statements_loop_wp (knot (budget src)) (r_n (knot (budget src))) [] (mkG st []) Hw Hd) as H. rewrite r_n_knot in H. unfold budget in H at 1 2.
  specialize (H ltac:(lia) ltac:(lia) (Forall_nil _)). rewrite <- r_n_knot in H. fold (parse_statements_loop (knot (budget src))) in H.
  pose proof (statements_nf (knot (budget src)) (mkG st [])) as N.
  destruct (rung (parse_statements_loop (knot (budget src))) (mkG st [])) as [a S'|S'|w|] eqn:Rg; cbn [forget outcome_of]; auto.
  - intros Z. apply (ends_compat _ _ _ _ _ Hw Rg) in Z. destruct (H Z) as (C & A1 & O1 & T1). pose proof (ex_wf _ _ C) as W'.
    split.
    + constructor; auto.
      * unfold AA in A1. rewrite He in A1. change (gW []) with 0 in A1. rewrite Nat.add_0_r in A1. exact A1.
      * destruct (w_log _ _ W') as (p & L & _). eauto.
      * apply (w_issues _ _ W').
    + exists (g_st S'). split; [reflexivity|].
      split; [unfold tk in T1; destruct (s_tok (g_st S')); easy|]. destruct (w_tok _ _ W') as (T & _). now apply T.
  - now destruct (N S').
Qed.

(** ** Specification: the contents of an AST *)
Section Contents.
Context {A : Type} {I : Atoms A}.
(** All byte ranges in [a]. *)
Definition spans_in (a : A) : list span :=
  flat_map (fun x => match x with ASpan s | AIdent _ s | AText _ s | AArg _ s | AInvalid s | ALeaf _ s => [s] | AEmpty _ | AFeature _ _ => [] end) (atoms a).
(** All identifiers: text and span. *)
Definition idents_in (a : A) : list (text * span) :=
  flat_map (fun x => match x with AIdent v s => [(v, s)] | _ => [] end) (atoms a).
(** All data blocks of COPY .. FROM STDIN: text and span. *)
Definition stdin_in (a : A) : list (text * span) :=
  flat_map (fun x => match x with AText v s => [(v, s)] | _ => [] end) (atoms a).
(** All arguments: number and span. *)
Definition args_in (a : A) : list (N * span) :=
  flat_map (fun x => match x with AArg n s => [(n, s)] | _ => [] end) (atoms a).
(** All leaves whose spelling [LeafSpec] describes, with the range where they are written. *)
Definition leaves_in (a : A) : list (leaf * span) :=
  flat_map (fun x => match x with ALeaf l s => [(l, s)] | _ => [] end) (atoms a).
(** All placeholders for something that could not be parsed. *)
Definition invalids_in (a : A) : list span :=
  flat_map (fun x => match x with AInvalid s => [s] | _ => [] end) (atoms a).
End Contents.
(** The source at [s] begins with a dollar sign. *)
Definition dollar_at (src : text) (s : span) : bool :=
  match slice src (fst s) (snd s) with Some (c :: _) => (c =? 36)%N | _ => false end.
(** The arguments that were not written [$n]. *)
Definition positional {A} {I : Atoms A} (src : text) (a : A) : list (N * span) :=
  filter (fun x => negb (dollar_at src (snd x))) (args_in a).
Definition new_issues (old all : list issue) : list issue := skipn (length old) all.
Definition errors (l : list issue) : list issue := filter is_error l.

Lemma new_issues_app old new : new_issues old (old ++ new) = new.
Proof. unfold new_issues. now rewrite skipn_app, skipn_all, Nat.sub_diag. Qed.
Lemma from_empty A (f : list issue -> outcome A) issues r out :
  (forall i, f i = prepend i (f [])) -> f issues = Returns r out ->
  f [] = Returns r (new_issues issues out).
Proof.
  intros H E. rewrite H in E. destruct (f []) as [a i| |]; try discriminate. cbn in E. injection E as -> <-. now rewrite new_issues_app.
Qed.
Lemma statement_from_empty src issues o r out : parse_statement_api src issues o = Returns r out ->
  parse_statement_api src [] o = Returns r (new_issues issues out).
Proof. apply (from_empty _ (fun i => parse_statement_api src i o)). intros. apply C43_statement_independent. Qed.
Lemma statements_from_empty src issues o r out : parse_statements src issues o = Returns r out ->
  parse_statements src [] o = Returns r (new_issues issues out).
Proof. apply (from_empty _ (fun i => parse_statements src i o)). intros. apply C43_statements_independent. Qed.
Lemma statement_no_return src issues o : (forall r out, parse_statement_api src issues o <> Returns r out) ->
  parse_statement_api src issues o = parse_statement_api src [] o.
Proof.
  rewrite C43_statement_independent. destruct (parse_statement_api src [] o); auto. intros H. now destruct (H a (issues ++ i)).
Qed.
Lemma statements_no_return src issues o : (forall r out, parse_statements src issues o <> Returns r out) ->
  parse_statements src issues o = parse_statements src [] o.
Proof.
  rewrite C43_statements_independent. destruct (parse_statements src [] o); auto. intros H. now destruct (H a (issues ++ i)).
Qed.

(** *** The environment without weights *)
Lemma weights0 sr : weights sr (fun _ => 0) 0 (fun _ _ => 0).
Proof. constructor; intros; lia. Qed.
Definition env0 (sr : text) (o : options) : env := env_of None 0 0 sr o _ _ _ (weights0 sr).

Lemma in_atoms A (I : Atoms A) (V : env) (a : A) out log : safe a out log -> forall x, In x (atoms a) -> ok nb x.
Proof. intros [H _ _ _] x. rewrite Forall_forall in H. apply H. Qed.

Section Both.
Context {A : Type} {I : Atoms A}.
Variables (sr : text) (o : options) (a : A) (out : list issue) (log : list (N * span)).
Hypothesis H : @safe (env0 sr o) A I a out log.
Lemma both_spans : Forall (vspan sr) (spans_in a).
Proof.
  rewrite Forall_forall. intros s Hx. unfold spans_in in Hx. apply in_flat_map in Hx as (x & X1 & X2).
  pose proof (in_atoms _ _ _ _ _ _ H x X1) as O. destruct x; cbn in X2, O; try (destruct X2 as [->|[]]); auto; try (apply O; fail).
  - destruct O as (w & [O _] & _). eapply at_vspan; eauto.
  - destruct O as [[O _] _]. eapply at_vspan; eauto.
  - destruct O as (w & [O _] & _). eapply at_vspan; eauto.
  - destruct O as (w & [O _] & _). eapply at_vspan; eauto.
  - destruct X2.
  - destruct X2.
Qed.
Lemma both_idents v s : In (v, s) (idents_in a) -> exists w, at_span sr s w /\ ident_text v w.
Proof.
  intros Hx. unfold idents_in in Hx. apply in_flat_map in Hx as (x & X1 & X2).
  pose proof (in_atoms _ _ _ _ _ _ H x X1) as O. destruct x; cbn in X2; try easy. destruct X2 as [X2|[]]. injection X2 as -> ->. destruct O as (w & [O1 _] & O2 & _). eauto.
Qed.
Lemma both_stdin v s : In (v, s) (stdin_in a) -> stdin_block sr v s.
Proof.
  intros Hx. unfold stdin_in in Hx. apply in_flat_map in Hx as (x & X1 & X2).
  pose proof (in_atoms _ _ _ _ _ _ H x X1) as O. destruct x; cbn in X2; try easy. destruct X2 as [X2|[]]. injection X2 as -> ->. apply O.
Qed.
Lemma both_dollar n s : o_arguments o = ArgDollar -> In (n, s) (args_in a) ->
  (exists d ds, at_span sr s (txt "$" ++ d :: ds) /\ (49 <= d <= 57)%N /\ Forall digit ds /\ dec_value (d :: ds) = (n + 1)%N) \/
  (o_list_hack o = true /\ exists w, at_span sr s w /\ upper w = txt "_LIST_").
Proof.
  intros Ho Hx. unfold args_in in Hx. apply in_flat_map in Hx as (x & X1 & X2).
  pose proof (in_atoms _ _ _ _ _ _ H x X1) as O. destruct x; cbn in X2; try easy. destruct X2 as [X2|[]]. injection X2 as -> ->.
  destruct O as (w & [O _] & [P|P]).
  - right. destruct P as [[P _]|[[P _]|[P1 P2]]]; try (cbn in P; congruence). cbn in P1. eauto.
  - left. destruct P as (_ & d & ds & -> & P). exists d, ds. split; [exact O|exact P].
Qed.
Lemma both_ice i : In i out -> internal_error (i_message i) = false.
Proof.
  intros Hi. pose proof (f_issues _ _ _ H) as F. rewrite Forall_forall in F. apply F in Hi as [Hi|[(v & _ & Hi & _)|[(v & _ & Hi & _)|(v & Hi & _)]]].
  - unfold plain_in in Hi. rewrite !andb_true_iff in Hi. now apply negb_true_iff.
  - rewrite Hi. reflexivity.
  - rewrite Hi. reflexivity.
  - rewrite Hi. reflexivity.
Qed.
End Both.
(** *** Counting placeholders against errors *)
Definition wt_inv1 (x : atom) : nat := match x with AInvalid _ => 1 | _ => 0 end.
Lemma weights1 sr : weights sr wt_inv1 1 (fun n _ => n).
Proof. constructor; intros; cbn; auto; lia. Qed.
Definition env1 (sr : text) (o : options) : env := env_of None 0 0 sr o _ _ _ (weights1 sr).
Lemma count_invalid l : list_sum (map wt_inv1 l) = length (flat_map (fun x => match x with AInvalid s => [s] | _ => [] end) l).
Proof. induction l as [|x l IH]; [reflexivity|]. cbn. rewrite app_length, <- IH. destruct x; reflexivity. Qed.
Lemma both_invalid A (I : Atoms A) sr o (a : A) out : forall log, @safe (env1 sr o) A I a out log ->
  length (invalids_in a) <= length (errors out).
Proof.
  intros log H. pose proof (f_w _ _ _ H) as F. unfold gW, W in F. cbn [cr env1 env_of wt] in F. rewrite count_invalid in F. exact F.
Qed.
(** *** Counting arguments against the log *)
Definition dec_arg : forall x y : N * span, {x = y} + {x <> y}.
Proof. repeat decide equality. Defined.
Definition wt_arg (sr : text) (x0 : N * span) (x : atom) : nat :=
  match x with AArg n s => if dollar_at sr s then 0 else if dec_arg (n, s) x0 then 1 else 0 | _ => 0 end.
Lemma weights2 sr x0 : weights sr (wt_arg sr x0) 0 (fun _ l => count_occ dec_arg l x0).
Proof.
  constructor; intros; cbn [wt_arg]; try apply le_n; try reflexivity.
  - unfold dollar_at. apply slice_iff_at in H. now rewrite H.
  - rewrite count_occ_app. lia.
  - rewrite count_occ_app. lia.
  - rewrite count_occ_app. cbn [count_occ]. destruct (dollar_at sr s); [lia|]. destruct (dec_arg (k, s) x0); lia.
Qed.
#[global] Opaque dec_arg.
Definition env2 (sr : text) (o : options) x0 : env := env_of None 0 0 sr o _ _ _ (weights2 sr x0).
Lemma count_arg sr x0 l : list_sum (map (wt_arg sr x0) l) =
  count_occ dec_arg (filter (fun x => negb (dollar_at sr (snd x))) (flat_map (fun x => match x with AArg n s => [(n, s)] | _ => [] end) l)) x0.
Proof.
  induction l as [|x l IH]; [reflexivity|]. cbn. rewrite filter_app, count_occ_app, <- IH. destruct x; try reflexivity. cbn.
  destruct (dollar_at sr s); cbn; [reflexivity|]. now destruct (dec_arg (n, s) x0).
Qed.
Lemma log_ok_inv sr o l p : log_ok sr o l p ->
  (forall k n s, nth_error l k = Some (n, s) -> n = N.of_nat k /\ snd s <= p /\ exists w, at_span sr s w /\ placeholder o w) /\
  (forall j k n s n' t, j < k -> nth_error l j = Some (n, s) -> nth_error l k = Some (n', t) -> snd s <= fst t).
Proof.
  induction 1 as [|l p n s w _ [IH1 IH2] En Lp At Pl].
  - split; intros; destruct k; discriminate.
  - assert (Ls : fst s <= snd s) by (apply at_vspan in At; apply At). split.
    + intros k n' s' H. destruct (Nat.lt_ge_cases k (length l)) as [L|L].
      * rewrite nth_error_app1 in H by auto. destruct (IH1 _ _ _ H) as (X1 & X2 & X3). repeat split; auto. lia.
      * rewrite nth_error_app2 in H by auto. destruct (k - length l) eqn:Ek; cbn in H; [|destruct n0; discriminate]. injection H as <- <-.
        split; [rewrite En; f_equal; lia|]. split; [lia|eauto].
    + intros j k n1 s1 n2 s2 L H1 H2. assert (Lk : k < length (l ++ [(n, s)])) by (apply nth_error_Some; congruence). rewrite app_length in Lk. cbn in Lk.
      rewrite nth_error_app1 in H1 by lia. destruct (Nat.lt_ge_cases k (length l)) as [L2|L2].
      * rewrite nth_error_app1 in H2 by auto. exact (IH2 j k _ _ _ _ L H1 H2).
      * rewrite nth_error_app2 in H2 by auto. replace (k - length l) with 0 in H2 by lia. injection H2 as <- <-. destruct (IH1 _ _ _ H1) as (_ & X & _). lia.
Qed.
(** Specification of C12. *)
Definition numbered (sr : text) (o : options) (args : list (N * span)) : Prop :=
  exists ps : list span, (* the placeholders that were consumed, in source order *)
    (forall s, In s ps -> exists w, at_span sr s w /\ placeholder o w) /\
    (forall j k s t, j < k -> nth_error ps j = Some s -> nth_error ps k = Some t -> snd s <= fst t) /\
    (forall n s, In (n, s) args -> nth_error ps (N.to_nat n) = Some s) /\
    NoDup (map fst args).
Lemma both_numbered A (I : Atoms A) sr o (a : A) out log : (forall V : env, src = sr -> opts = o -> fin_issues = None -> safe a out log) ->
  numbered sr o (positional sr a).
Proof.
  intros H. exists (map snd log).
  destruct (f_log _ _ _ (H (env0 sr o) eq_refl eq_refl eq_refl)) as (p & L). apply log_ok_inv in L as [L1 L2].
  assert (Cn : forall x, count_occ dec_arg (positional sr a) x <= count_occ dec_arg log x).
  { intros x. pose proof (f_w _ _ _ (H (env2 sr o x) eq_refl eq_refl eq_refl)) as F. unfold gW, W in F. cbn [cr env2 env_of wt] in F.
    rewrite count_arg in F. exact F. }
  assert (Lin : forall n s, In (n, s) (positional sr a) -> nth_error log (N.to_nat n) = Some (n, s)).
  { intros n s Hx. apply (count_occ_In dec_arg) in Hx. specialize (Cn (n, s)).
    assert (Hl : In (n, s) log) by (apply (count_occ_In dec_arg); lia). apply In_nth_error in Hl as [k Hk].
    destruct (L1 _ _ _ Hk) as [-> _]. now rewrite Nat2N.id. }
  assert (N1 : forall x, count_occ dec_arg log x <= 1).
  { intros x. assert (ND : NoDup log); [|now apply (NoDup_count_occ dec_arg)].
    apply NoDup_nth_error. intros i j Hi E. destruct (nth_error log i) as [[n s]|] eqn:Ei; [|apply nth_error_None in Ei; lia].
    symmetry in E. destruct (L1 _ _ _ Ei) as [X _]. destruct (L1 _ _ _ E) as [Y _]. apply Nat2N.inj. congruence. }
  split; [|split; [|split]].
  - intros s Hs. apply in_map_iff in Hs as ((n & s') & E & Hs). cbn in E. subst s'. apply In_nth_error in Hs as [k Hk]. now destruct (L1 _ _ _ Hk) as (_ & _ & X).
  - intros j k s t Hj Hs Ht. rewrite nth_error_map in Hs, Ht. destruct (nth_error log j) as [[n s']|] eqn:Ej; [|discriminate].
    destruct (nth_error log k) as [[n' t']|] eqn:Ek; [|discriminate]. cbn in Hs, Ht. injection Hs as <-. injection Ht as <-. eapply L2; eauto.
  - intros n s Hx. rewrite nth_error_map, (Lin _ _ Hx). reflexivity.
  - assert (ND : NoDup (positional sr a)).
    { apply (NoDup_count_occ dec_arg). intros x. specialize (Cn x). specialize (N1 x). lia. }
    clear - ND Lin. induction (positional sr a) as [|[n s] l IH]; cbn; constructor.
    + intros Hn. apply in_map_iff in Hn as ((n' & s') & E & Hn). cbn in E. subst n'. inversion ND as [|? ? X _]; subst. apply X.
      pose proof (Lin n s (or_introl eq_refl)). pose proof (Lin n s' (or_intror Hn)). congruence.
    + inversion ND; subst. apply IH; auto. intros. apply Lin. now right.
Qed.

(** ** The theorems *)
Lemma statement_facts src issues o r out : parse_statement_api src issues o = Returns r out ->
  forall V : env, SafeLogic.src = src -> opts = o -> ends_with (new_issues issues out) ->
  safe r (new_issues issues out) (final_log parse_statement_body src o) /\
  (exists st, final_state parse_statement_body src o = Some st /\
     match r with None => 0 < nerrs (new_issues issues out)
                | Some _ => 0 < nerrs (new_issues issues out) \/ (s_tok st = TEof /\ fst (s_span st) = blen src) end).
Proof. intros H V <- <-. apply statement_from_empty in H. pose proof (@statement_safe V) as X. rewrite H in X. intros E. exact (X (ends_wide _ E) E). Qed.
Lemma statements_facts src issues o r out : parse_statements src issues o = Returns r out ->
  forall V : env, SafeLogic.src = src -> opts = o -> ends_with (new_issues issues out) ->
  safe r (new_issues issues out) (final_log parse_statements_loop src o) /\
  (exists st, final_state parse_statements_loop src o = Some st /\ s_tok st = TEof /\ fst (s_span st) = blen src).
Proof. intros H V <- <-. apply statements_from_empty in H. pose proof (@statements_safe V) as X. rewrite H in X. intros E. exact (X (ends_wide _ E) E). Qed.

(** C01: every byte range in the returned AST can be used to slice the source, and so can those
    of the new issues and their fragments ([vspan]: ordered, in range, on character boundaries). *)
Definition issue_spans_valid (src : text) (i : issue) : Prop :=
  vspan src (i_span i) /\ forall f, In f (i_fragments i) -> vspan src (f_span f).
Theorem C01_statement_spans : forall src issues o s out,
  parse_statement_api src issues o = Returns s out ->
  Forall (vspan src) (spans_in s) /\ Forall (issue_spans_valid src) (new_issues issues out).
Proof.
  intros src issues o s out H. split.
  - destruct (statement_facts _ _ _ _ _ H (env0 src o) eq_refl eq_refl I) as [F _]. eapply both_spans; eauto.
  - apply Forall_forall. intros i Hi. destruct (C02_statement_segments _ _ _ _ _ i H Hi) as [X Y].
    split; [eapply at_vspan; eauto|]. intros f Hf. eapply at_vspan, Y, Hf.
Qed.
Theorem C01_statements_spans : forall src issues o l out,
  parse_statements src issues o = Returns l out ->
  Forall (vspan src) (spans_in l) /\ Forall (issue_spans_valid src) (new_issues issues out).
Proof.
  intros src issues o s out H. split.
  - destruct (statements_facts _ _ _ _ _ H (env0 src o) eq_refl eq_refl I) as [F _]. eapply both_spans; eauto.
  - apply Forall_forall. intros i Hi. destruct (C02_statements_segments _ _ _ _ _ i H Hi) as [X Y].
    split; [eapply at_vspan; eauto|]. intros f Hf. eapply at_vspan, Y, Hf.
Qed.
(** A valid range is what slicing needs. *)
Theorem C01_slicing : forall src s, vspan src s <-> exists w, slice src (fst s) (snd s) = Some w.
Proof. exact vspan_slice. Qed.
Example C01_applies :
  match parse_statements (txt "SELECT `a`, 'x' FROM t WHERE y = ?; SELECT (") [] (mkOptions MariaDB ArgQuestionMark true true false) with
  | Returns l out => length l = 1 /\ length (spans_in l) = 12 /\ length out = 3 | _ => False end.
Proof. vm_compute. repeat split. Qed.

(** C04: no silent failure. *)
Theorem C04_none_means_error : forall src issues o out,
  parse_statement_api src issues o = Returns None out -> errors (new_issues issues out) <> [].
Proof.
  intros src issues o out H. destruct (statement_facts _ _ _ _ _ H (env0 src o) eq_refl eq_refl I) as (_ & st & _ & F).
  unfold nerrs, errors in *. intros E. rewrite E in F. cbn in F. lia.
Qed.
Example C04_applies : match parse_statement_api (txt "SELECT") [] default_options with Returns None [_] => True | _ => False end.
Proof. exact I. Qed.

(** C05: every placeholder in the AST is matched by an Error. *)
Theorem C05_statement : forall src issues o s out,
  parse_statement_api src issues o = Returns s out ->
  length (invalids_in s) <= length (errors (new_issues issues out)).
Proof.
  intros src issues o s out H. destruct (statement_facts _ _ _ _ _ H (env1 src o) eq_refl eq_refl I) as [F _]. eapply both_invalid; eauto.
Qed.
Theorem C05_statements : forall src issues o l out,
  parse_statements src issues o = Returns l out ->
  length (invalids_in l) <= length (errors (new_issues issues out)).
Proof.
  intros src issues o s out H. destruct (statements_facts _ _ _ _ _ H (env1 src o) eq_refl eq_refl I) as [F _]. eapply both_invalid; eauto.
Qed.
Corollary C05_error_free : forall src issues o l out,
  parse_statements src issues o = Returns l out -> errors (new_issues issues out) = [] -> invalids_in l = [].
Proof.
  intros src issues o l out H E. apply C05_statements in H. rewrite E in H. cbn in H. destruct (invalids_in l); [reflexivity|cbn in H; lia].
Qed.
Example C05_applies : match parse_statement_api (txt "(FROM) UNION SELECT 1") [] default_options with
  Returns (Some s) out => length (invalids_in s) = 1 /\ length (errors out) = 1 | _ => False end.
Proof. vm_compute. repeat split. Qed.

(** C06: parse_statement terminates: the recursion and every loop end within any budget that is
    at least the number of characters plus two ([knot n]: functions nest at most [n] deep; no loop
    runs more than [n] + 1 times). *)
Theorem C06_statement_terminates : forall src issues o n, length src + 2 <= n ->
  parse_statement_n n src src issues o <> NoFuel.
Proof.
  intros sr issues o n Hn H. unfold parse_statement_n in H.
  rewrite (api_prepend _ (parse_statement_body (knot n))) in H. pose proof (@init_wf (env0 sr o) I) as X. cbn [src opts env0 env_of] in X.
  destruct (parser_new sr sr [] o) as [st _x|w|]; [|discriminate|easy]. destruct X as (Hw & Hm & _ & _).
  pose proof (rung_run _ (parse_statement_body (knot n)) (mkG st [])) as R. cbn [g_st] in R. rewrite R in H. clear R.
  pose proof (@statement_body_wp (env0 sr o) (knot n) _ _ (mkG st []) Hw) as W. rewrite r_n_knot in W. change (SafeLogic.src) with sr in Hm.
  specialize (W ltac:(lia)). unfold wp in W. destruct (rung (parse_statement_body (knot n)) (mkG st [])); try discriminate. now destruct W.
Qed.
Example C06_applies : match parse_statement_n 14 (txt "SELECT ((1))") (txt "SELECT ((1))") [] default_options with Returns (Some _) [] => True | _ => False end /\
  parse_statement_n 2 (txt "SELECT ((1))") (txt "SELECT ((1))") [] default_options = NoFuel.
Proof. split; [exact I|reflexivity]. Qed.
(** C07: parse_statements terminates in the same way unless the input ends with the command
    DELIMITER ([delimiter_at_end]: the word, then only blanks and comments), ... *)
Theorem C07_statements_terminate_partial : forall src issues o n, length src + 2 <= n ->
  ~ delimiter_at_end src -> parse_statements_n n src src issues o <> NoFuel.
Proof.
  intros sr issues o n Hn Hd H. unfold parse_statements_n in H.
  rewrite (api_prepend _ (parse_statements_loop (knot n))) in H. pose proof (@init_wf (env0 sr o) I) as X. cbn [src opts env0 env_of] in X.
  destruct (parser_new sr sr [] o) as [st _x|w|]; [|discriminate|easy]. destruct X as (Hw & Hm & _ & Hl).
  pose proof (rung_run _ (parse_statements_loop (knot n)) (mkG st [])) as R. cbn [g_st] in R. rewrite R in H. clear R.
  pose proof (@statements_loop_wp (env0 sr o) (knot n) _ _ (r_n (knot n)) [] (mkG st []) Hw Hl) as W. rewrite r_n_knot in W. change (SafeLogic.src) with sr in Hm.
  specialize (W ltac:(lia) ltac:(lia) (Forall_nil _)). rewrite <- (r_n_knot n) in W. fold (parse_statements_loop (knot n)) in W.
  destruct (rung (parse_statements_loop (knot n)) (mkG st [])); try discriminate. auto.
Qed.
Example C07_applies : ~ delimiter_at_end (txt "SELECT 1;").
Proof.
  intros (pre & v & post & E & U & _). assert (X : has_word (txt "SELECT 1;") "DELIMITER") by (exists pre, v, post; auto).
  apply has_wordb_spec in X. discriminate.
Qed.
(** ... where it does not terminate, however large the budget. *)
Theorem C07_refuted : exists src o, forall n issues, parse_statements_n n src src issues o = NoFuel.
Proof.
  exists (txt "DELIMITER"), default_options. intros n issues. unfold parse_statements_n.
  rewrite (api_prepend _ (parse_statements_loop (knot n))).
  destruct (parser_new (txt "DELIMITER") (txt "DELIMITER") [] default_options) as [st _x|w|] eqn:E; [|discriminate|discriminate].
  pose proof (rung_run _ (parse_statements_loop (knot n)) (mkG st [])) as R. cbn [g_st] in R. rewrite R. clear R.
  vm_compute in E. injection E as <- _.
  unfold parse_statements_loop. rewrite r_n_knot. cbn [loop]. rewrite rung_bind.
  set (S0 := mkG _ []).
  assert (St : exists S1 l, rung (parse_statements_step (knot n) []) S0 = GOk (inl l) S1 /\ stuck S1).
  { unfold parse_statements_step. rewrite r_n_knot. generalize (r_stmt (knot n)) (recover_statement (S n)). intros p q.
    eexists _, _. split; [vm_compute; reflexivity|]. constructor; vm_compute; reflexivity. }
  destruct St as (S1 & l & -> & U). destruct n as [|n]; [reflexivity|]. cbn [loop]. rewrite rung_bind. unfold parse_statements_step at 1.
  rewrite rung_bind, stuck_loops; auto.
Qed.

(** C08: the only panics are the three that remain ([remaining_panic]): a hexadecimal literal,
    a dollar argument that exceeds usize::MAX, and asking an empty block for its span, which takes
    the words WITH and BEGIN in the source.  Each of the three does happen. *)
Theorem C08_statement_panics_partial : forall src issues o w,
  parse_statement_api src issues o = Panics w -> remaining_panic src w.
Proof.
  intros src issues o w H. pose proof (@statement_safe (env0 src o) I) as X. change (SafeLogic.src) with src in X. change opts with o in X.
  rewrite <- (statement_no_return src issues o) in X; [|congruence]. rewrite H in X. now apply X.
Qed.
Theorem C08_statements_panics_partial : forall src issues o w,
  parse_statements src issues o = Panics w -> remaining_panic src w.
Proof.
  intros src issues o w H. pose proof (@statements_safe (env0 src o) I) as X. change (SafeLogic.src) with src in X. change opts with o in X.
  rewrite <- (statements_no_return src issues o) in X; [|congruence]. rewrite H in X. now apply X.
Qed.
Theorem C08_refuted :
  (exists src o, parse_statement_api src [] o = Panics PHexLiteral) /\
  (exists src o, parse_statement_api src [] o = Panics PDollarOverflow) /\
  (exists src o, parse_statement_api src [] o = Panics PSpanOfBlock).
Proof.
  split; [|split].
  - exists (txt "SELECT x'AB'"), default_options. reflexivity.
  - exists (txt "SELECT $18446744073709551616"), default_options. reflexivity.
  - exists (txt "WITH a AS (DO $$ BEGIN EXCEPTION END $$) SELECT 1"), (mkOptions PostgreSQL ArgNone false false false). vm_compute. reflexivity.
Qed.
(** A source with none of the three always gets an answer. *)
Corollary C08_safe_inputs : forall src issues o,
  ~ has_hex src -> ~ has_big_dollar src -> ~ (has_word src "BEGIN" /\ has_word src "WITH") ->
  exists s out, parse_statement_api src issues o = Returns s out.
Proof.
  intros src issues o H1 H2 H3. destruct (parse_statement_api src issues o) as [s out|w|] eqn:E; [eauto| |].
  - apply C08_statement_panics_partial in E as [[_ E]|[[_ E]|[_ E]]]; tauto.
  - exfalso. apply (C06_statement_terminates src issues o (budget src)); [unfold budget; lia|exact E].
Qed.
Example C08_applies : ~ has_hex (txt "SELECT 1") /\ ~ has_big_dollar (txt "SELECT 1") /\ ~ (has_word (txt "SELECT 1") "BEGIN" /\ has_word (txt "SELECT 1") "WITH").
Proof.
  split; [|split].
  - intros (pre & c & post & E & _). assert (In 39%N (txt "SELECT 1")) by (rewrite E; apply in_or_app; right; right; left; reflexivity).
    vm_compute in H. repeat (destruct H as [H|H]; [discriminate|]). exact H.
  - intros (pre & ds & post & E & _). assert (In 36%N (txt "SELECT 1")) by (rewrite E; apply in_or_app; right; left; reflexivity).
    vm_compute in H. repeat (destruct H as [H|H]; [discriminate|]). exact H.
  - intros [H _]. apply has_wordb_spec in H. discriminate.
Qed.

(** C11: no internal compiler error is ever reported. *)
Theorem C11_statement_no_ice : forall src issues o s out i,
  parse_statement_api src issues o = Returns s out -> In i (new_issues issues out) -> internal_error (i_message i) = false.
Proof.
  intros src issues o s out i H Hi. destruct (statement_facts _ _ _ _ _ H (env0 src o) eq_refl eq_refl I) as [F _]. exact (both_ice _ _ _ _ _ F i Hi).
Qed.
Theorem C11_statements_no_ice : forall src issues o l out i,
  parse_statements src issues o = Returns l out -> In i (new_issues issues out) -> internal_error (i_message i) = false.
Proof.
  intros src issues o s out i H Hi. destruct (statements_facts _ _ _ _ _ H (env0 src o) eq_refl eq_refl I) as [F _]. exact (both_ice _ _ _ _ _ F i Hi).
Qed.

(** C12: positional arguments are numbered consecutively in source order. *)
Theorem C12_statement_numbered : forall src issues o s out,
  parse_statement_api src issues o = Returns s out -> numbered src o (positional src s).
Proof.
  intros src issues o s out H. apply (both_numbered _ _ _ _ _ (new_issues issues out) (final_log parse_statement_body src o)).
  intros V E1 E2 E3. apply (statement_facts _ _ _ _ _ H V E1 E2). unfold ends_with, finally. now rewrite E3.
Qed.
Theorem C12_statements_numbered : forall src issues o l out,
  parse_statements src issues o = Returns l out -> numbered src o (positional src l).
Proof.
  intros src issues o s out H. apply (both_numbered _ _ _ _ _ (new_issues issues out) (final_log parse_statements_loop src o)).
  intros V E1 E2 E3. apply (statements_facts _ _ _ _ _ H V E1 E2). unfold ends_with, finally. now rewrite E3.
Qed.
Example C12_applies :
  match parse_statements (txt "SELECT ? + ?; SELECT f(?, _LIST_) FROM t LIMIT ?;") [] (mkOptions MariaDB ArgQuestionMark false false true) with
  | Returns l _ => positional (txt "SELECT ? + ?; SELECT f(?, _LIST_) FROM t LIMIT ?;") l =
      [(0%N, (7, 8)); (1%N, (11, 12)); (2%N, (23, 24)); (3%N, (26, 32)); (4%N, (47, 48))] | _ => False end.
Proof. vm_compute. reflexivity. Qed.

(** C13: with SQLArguments::Dollar every argument in the AST is [$n] in the source and has
    the number n - 1 (or it comes from the _LIST_ hack). *)
Definition dollar_numbered (src : text) (o : options) (n : N) (s : span) : Prop :=
  (exists d ds, at_span src s (txt "$" ++ d :: ds) /\ (49 <= d <= 57)%N /\ Forall digit ds /\ dec_value (d :: ds) = (n + 1)%N) \/
  (o_list_hack o = true /\ exists w, at_span src s w /\ upper w = txt "_LIST_").
Theorem C13_statement_dollar : forall src issues o s out n sp,
  parse_statement_api src issues o = Returns s out -> o_arguments o = ArgDollar -> In (n, sp) (args_in s) -> dollar_numbered src o n sp.
Proof.
  intros src issues o s out n sp H Ho Hi. destruct (statement_facts _ _ _ _ _ H (env0 src o) eq_refl eq_refl I) as [F _]. exact (both_dollar _ _ _ _ _ F n sp Ho Hi).
Qed.
Theorem C13_statements_dollar : forall src issues o l out n sp,
  parse_statements src issues o = Returns l out -> o_arguments o = ArgDollar -> In (n, sp) (args_in l) -> dollar_numbered src o n sp.
Proof.
  intros src issues o s out n sp H Ho Hi. destruct (statements_facts _ _ _ _ _ H (env0 src o) eq_refl eq_refl I) as [F _]. exact (both_dollar _ _ _ _ _ F n sp Ho Hi).
Qed.
Example C13_applies :
  match parse_statement_api (txt "SELECT $12 + $1 + $12 FROM t") [] (mkOptions PostgreSQL ArgDollar false false false) with
  | Returns s _ => args_in s = [(11%N, (7, 10)); (0%N, (13, 15)); (11%N, (18, 21))] | _ => False end.
Proof. vm_compute. reflexivity. Qed.

(** C29: without an Error the whole input has been consumed. *)
Theorem C29_statement_consumes_all : forall src issues o s out,
  parse_statement_api src issues o = Returns (Some s) out -> errors (new_issues issues out) = [] ->
  exists st, final_state parse_statement_body src o = Some st /\ s_tok st = TEof /\ fst (s_span st) = blen src.
Proof.
  intros src issues o s out H E. destruct (statement_facts _ _ _ _ _ H (env0 src o) eq_refl eq_refl I) as (_ & st & F1 & F2).
  exists st. split; [exact F1|]. destruct F2 as [F2|F2]; [|exact F2]. unfold nerrs in F2. unfold errors in E. rewrite E in F2. cbn in F2. lia.
Qed.
Theorem C29_statements_consume_all : forall src issues o l out,
  parse_statements src issues o = Returns l out ->
  exists st, final_state parse_statements_loop src o = Some st /\ s_tok st = TEof /\ fst (s_span st) = blen src.
Proof. intros src issues o s out H. exact (proj2 (statements_facts _ _ _ _ _ H (env0 src o) eq_refl eq_refl I)). Qed.
Example C29_applies : match parse_statement_api (txt "SELECT 1 -- done") [] default_options with Returns (Some _) [] => True | _ => False end /\
  match parse_statement_api (txt "SELECT 1; SELECT 2") [] default_options with Returns (Some _) [_] => True | _ => False end.
Proof. vm_compute. auto. Qed.

(** C30: the data blocks in the AST are delimited as they should be ... *)
Theorem C30_statement_block : forall src issues o s out d sp,
  parse_statement_api src issues o = Returns s out -> In (d, sp) (stdin_in s) -> stdin_block src d sp.
Proof.
  intros src issues o s out d sp H Hi. destruct (statement_facts _ _ _ _ _ H (env0 src o) eq_refl eq_refl I) as [F _]. exact (both_stdin _ _ _ _ _ F d sp Hi).
Qed.
Theorem C30_statements_block : forall src issues o l out d sp,
  parse_statements src issues o = Returns l out -> In (d, sp) (stdin_in l) -> stdin_block src d sp.
Proof.
  intros src issues o s out d sp H Hi. destruct (statements_facts _ _ _ _ _ H (env0 src o) eq_refl eq_refl I) as [F _]. exact (both_stdin _ _ _ _ _ F d sp Hi).
Qed.
(** ... and reading goes on right after the end line, or at the end of the input. *)
Theorem C30_resumes : forall l, lwf l -> exists d sp l', read_from_stdin l = LOk (d, sp) l' /\ stdin_at l d sp l'.
Proof. exact read_from_stdin_spec. Qed.
Example C30_applies :
  let src := txt "COPY t(a) FROM STDIN; " ++ [10%N] ++ txt "a" ++ [10%N] ++ txt "b\." ++ [10%N] ++ txt "\." ++ [10%N] ++ txt "SELECT 1;" in
  match parse_statements src [] (mkOptions PostgreSQL ArgNone false false false) with
  | Returns l [] => length l = 3 /\ stdin_in l = [(txt "a" ++ [10%N] ++ txt "b\." ++ [10%N], (23, 29))] | _ => False end.
Proof. vm_compute. split; reflexivity. Qed.

(** C36: the text of an identifier is the source text, without quotes if quoted. *)
Definition source_name (src v : text) (s : span) : Prop :=
  at_span src s v \/ at_span src s (txt "`" ++ v ++ txt "`") \/ at_span src s ([34%N] ++ v ++ [34%N]).
Lemma ident_source sr v s : (exists w, at_span sr s w /\ ident_text v w) -> source_name sr v s.
Proof. intros (w & At & [E|[E|E]]); subst w; unfold source_name; auto. Qed.
Theorem C36_statement_names : forall src issues o r out v s,
  parse_statement_api src issues o = Returns r out -> In (v, s) (idents_in r) -> source_name src v s.
Proof.
  intros src issues o r out v s H Hi. apply ident_source. destruct (statement_facts _ _ _ _ _ H (env0 src o) eq_refl eq_refl I) as [F _]. exact (both_idents _ _ _ _ _ F v s Hi).
Qed.
Theorem C36_statements_names : forall src issues o l out v s,
  parse_statements src issues o = Returns l out -> In (v, s) (idents_in l) -> source_name src v s.
Proof.
  intros src issues o r out v s H Hi. apply ident_source. destruct (statements_facts _ _ _ _ _ H (env0 src o) eq_refl eq_refl I) as [F _]. exact (both_idents _ _ _ _ _ F v s Hi).
Qed.
Example C36_applies :
  match parse_statement_api (txt "SELECT `a`, c.d FROM `t-u` AS x") [] default_options with
  | Returns r _ => idents_in r = [(txt "a", (7, 10)); (txt "c", (12, 13)); (txt "d", (14, 15)); (txt "t-u", (21, 26)); (txt "x", (30, 31))] | _ => False end.
Proof. vm_compute. reflexivity. Qed.

(** ** Lint options: C19, C20 *)
Definition same_value {A} (x y : outcome A) : Prop :=
  match x, y with Returns a _, Returns b _ => a = b | Panics w, Panics w' => w = w' | NoFuel, NoFuel => True | _, _ => False end.
(** The options agree except for the lints. *)
Definition same_but_lints (o o' : options) : Prop :=
  o_dialect o = o_dialect o' /\ o_arguments o = o_arguments o' /\ o_list_hack o = o_list_hack o'.
Definition lint_related {A} (o : options) (x y : outcome A) : Prop :=
  match x, y with Returns a i, Returns b j => a = b /\ lint_extra o i j | Panics w, Panics w' => w = w' | NoFuel, NoFuel => True | _, _ => False end.
Lemma api_lint A (p : prog A) src isrc issues o :
  match parser_new src isrc issues o with
  | XOk st _ => outcome_of (run p st) | XPanic w => Panics w | XFuel => NoFuel end <> Panics PBadSlice ->
  lint_related o
  match parser_new src isrc issues (no_lints o) with
  | XOk st _ => outcome_of (run p st) | XPanic w => Panics w | XFuel => NoFuel end
  match parser_new src isrc issues o with
  | XOk st _ => outcome_of (run p st) | XPanic w => Panics w | XFuel => NoFuel end.
Proof.
  unfold parser_new. destruct (next_token _) as [[t s] l|]; [|easy]. intros N.
  assert (L : lint_sim o (mkPst l t s None isrc issues 0 TSemiColon (no_lints o) false) (mkPst l t s None isrc issues 0 TSemiColon o false)).
  { split; [reflexivity|]. exists issues. split; [reflexivity|apply lint_extra_refl]. }
  destruct (run_lint _ p _ _ _ L) as [E|E]; [rewrite E in N; easy|].
  set (r0 := run p (mkPst _ _ _ _ _ _ _ _ (no_lints o) _)) in *. set (r1 := run p (mkPst _ _ _ _ _ _ _ _ o _)) in *. clearbody r0 r1.
  destruct r0 as [a st0|st0|w|], r1 as [b st|st|w'|]; cbn; try easy.
  destruct E as (-> & _ & i & -> & E). split; [reflexivity|exact E].
Qed.
Lemma statement_lint src issues o : lint_related o (parse_statement_api src issues (no_lints o)) (parse_statement_api src issues o).
Proof. apply api_lint. intros H. apply C08_statement_panics_partial in H as [[X _]|[[X _]|[X _]]]; discriminate. Qed.
Lemma statements_lint src issues o : lint_related o (parse_statements src issues (no_lints o)) (parse_statements src issues o).
Proof. apply api_lint. intros H. apply C08_statements_panics_partial in H as [[X _]|[[X _]|[X _]]]; discriminate. Qed.
Lemma lint_same A o (x y : outcome A) : lint_related o x y -> same_value x y.
Proof. destruct x, y; cbn; tauto. Qed.
Lemma same_value_trans A (x y z : outcome A) : same_value y x -> same_value y z -> same_value x z.
Proof. destruct x, y, z; cbn; try tauto; congruence. Qed.
Lemma same_no_lints o o' : same_but_lints o o' -> no_lints o = no_lints o'.
Proof. intros (A & B & C). unfold no_lints. now rewrite A, B, C. Qed.
Theorem C19_statement_same_ast : forall src issues o o', same_but_lints o o' ->
  same_value (parse_statement_api src issues o) (parse_statement_api src issues o').
Proof.
  intros src issues o o' H. eapply same_value_trans; [eapply lint_same, statement_lint|]. rewrite (same_no_lints _ _ H). eapply lint_same, statement_lint.
Qed.
Theorem C19_statements_same_ast : forall src issues o o', same_but_lints o o' ->
  same_value (parse_statements src issues o) (parse_statements src issues o').
Proof.
  intros src issues o o' H. eapply same_value_trans; [eapply lint_same, statements_lint|]. rewrite (same_no_lints _ _ H). eapply lint_same, statements_lint.
Qed.
Example C19_applies : same_but_lints (mkOptions MariaDB ArgNone true true false) default_options /\
  match parse_statement_api (txt "select a from b") [] (mkOptions MariaDB ArgNone true true false) with Returns (Some _) [_; _; _; _] => True | _ => False end /\
  match parse_statement_api (txt "select a from b") [] default_options with Returns (Some _) [] => True | _ => False end.
Proof. vm_compute. auto. Qed.

(** C20: the capitalisation lint adds warnings only; the lint for unquoted identifiers adds Errors. *)
Lemma lint_extra_errors o i j : o_warn_unquoted o = false -> lint_extra o i j -> errors i = errors j.
Proof.
  intros H. unfold errors. induction 1 as [|off on x _ IH|off on x _ IH (_ & [[X _]|(_ & L & _)])]; [reflexivity| |congruence|].
  - now rewrite !filter_app, IH.
  - rewrite filter_app, <- IH. cbn. unfold is_error. rewrite L. cbn. now rewrite app_nil_r.
Qed.
Theorem C20_caps_lint_partial : forall src issues o, o_warn_unquoted o = false ->
  match parse_statements src issues (no_lints o), parse_statements src issues o with
  | Returns l i, Returns l' i' => l = l' /\ errors i = errors i' | _, _ => True end.
Proof.
  intros src issues o H. pose proof (statements_lint src issues o) as X. destruct (parse_statements src issues (no_lints o)), (parse_statements src issues o); try easy.
  destruct X as [-> X]. split; [reflexivity|]. eapply lint_extra_errors; eauto.
Qed.
Theorem C20_caps_lint_statement_partial : forall src issues o, o_warn_unquoted o = false ->
  match parse_statement_api src issues (no_lints o), parse_statement_api src issues o with
  | Returns l i, Returns l' i' => l = l' /\ errors i = errors i' | _, _ => True end.
Proof.
  intros src issues o H. pose proof (statement_lint src issues o) as X. destruct (parse_statement_api src issues (no_lints o)), (parse_statement_api src issues o); try easy.
  destruct X as [-> X]. split; [reflexivity|]. eapply lint_extra_errors; eauto.
Qed.
(** With either lint the issues are those without, plus lint issues ([lint_issue] says which). *)
Theorem C20_only_lint_issues : forall src issues o,
  match parse_statements src issues (no_lints o), parse_statements src issues o with
  | Returns l i, Returns l' i' => l = l' /\ lint_extra o i i' | _, _ => True end.
Proof.
  intros src issues o. pose proof (statements_lint src issues o) as X. destruct (parse_statements src issues (no_lints o)), (parse_statements src issues o); try easy.
Qed.
Theorem C20_refuted : exists src o,
  match parse_statement_api src [] (no_lints o), parse_statement_api src [] o with
  | Returns _ i, Returns _ i' => errors i = [] /\ errors i' <> [] | _, _ => False end.
Proof. exists (txt "SELECT * FROM a"), (mkOptions MariaDB ArgNone true false false). vm_compute. split; [reflexivity|discriminate]. Qed.
