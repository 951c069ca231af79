(** C56: the entry points. *)
From Verif Require Export LayStatement Api View.
From Verif Require AcceptTop.
From Coq Require Import Lia Sorting.Sorted.
Local Open Scope string_scope.
Local Open Scope list_scope.

(** ** The recursion *)
Section Top.
Context {L : lenv}.
Lemma knot_layout n : rrel (knot n).
Proof.
  induction n as [|n IH].
  - constructor; cbn [knot r_expr r_compound r_stmt]; intros; apply pr_fuel.
  - constructor; cbn [knot r_expr r_compound r_stmt].
    + intros i. now apply parse_expression_l.
    + now apply parse_compound_query_l.
    + apply parse_statement_l; [exact IH|]. apply (AcceptTop.kn_gives default_options), AcceptTop.knot_accepts.
Qed.
Lemma body_l n : pr rm (parse_statement_body (knot (S n))) (parse_statement_body (knot (S n))).
Proof.
  unfold parse_statement_body. assert (P : pr rm (parse_statement (knot (S n))) (parse_statement (knot (S n)))) by exact (@rr_stmt _ _ (knot_layout (S (S n)))).
  eapply (pr_try (option stmt) _ rm); [exact P| |now apply pr_ret].
  intros [v|] a' ->.
  - cbn [rm respan Rs_option]. apply pr_token. intros t t' Ht. rewrite (rel_eqb t t' Ht) by (intros _; reflexivity). apply (pr_bind _ _ eq).
    + destruct (negb _); [|now apply pr_ret]. unfold expected_error. apply pr_span. intros s. apply (pr_issue _ _ _ _ _ _ _ _ (fun x => Ret x) (fun x => Ret x)); auto. now apply pr_ret.
    + intros _ _ _. now apply pr_ret.
  - cbn [rm respan Rs_option]. apply pr_expected_error. now apply pr_ret.
Qed.
Lemma loop_l n : pr rm (parse_statements_loop (knot n)) (parse_statements_loop (knot n)).
Proof. apply parse_statements_loop_l. apply knot_layout. Qed.

(** ** The start *)
Lemma lexes_firstn n : forall l ts, lexes l ts -> lexes l (firstn n ts).
Proof. induction n as [|n IH]; intros l [|x ts] H; cbn [firstn lexes] in *; auto. destruct H as (l' & E & H). exists l'. split; [exact E|]. now apply IH. Qed.
Lemma map_repeat_ A B (f : A -> B) x k : map f (repeat x k) = repeat (f x) k.
Proof. induction k; cbn; congruence. Qed.
Lemma eof_last_ p r ts e : layout p r (ts ++ [e]) -> e = (TEof, (p + blen r, p + blen r)).
Proof.
  intros H. remember (ts ++ [e]) as us eqn:E. revert ts e E. induction H as [p g|p g w r t us Tg Wn Tt Te En La IH]; intros ts e E.
  - destruct ts as [|y [|]]; try discriminate. now injection E.
  - destruct ts as [|y ts]; cbn in E; injection E as E1 E2; [subst us; inversion La|]. rewrite (IH _ _ E2). rewrite !blen_app. f_equal. f_equal; lia.
Qed.
Lemma forall2_repeat A B (R : A -> B -> Prop) x y k : R x y -> Forall2 R (repeat x k) (repeat y k).
Proof. intros H. induction k; cbn; constructor; auto. Qed.
Lemma forall2_firstn A B (R : A -> B -> Prop) k : forall l l', Forall2 R l l' -> Forall2 R (firstn k l) (firstn k l').
Proof. induction k as [|k IH]; intros l l' H; [constructor|]. destruct H; cbn [firstn]; constructor; auto. Qed.
Lemma start_l src src' ts ts' o : tokens src = Some (inl (ts ++ [eof_of src])) -> tokens src' = Some (inl (ts' ++ [eof_of src'])) -> Forall2 xrel ts ts' -> snd (eof_of src') = lf (snd (eof_of src)) ->
  (lcase = true -> o_warn_caps o = false) ->
  exists st st', parser_new src src [] o = XOk st st /\ parser_new src' src' [] o = XOk st' st' /\ sr st st' /\ s_issues st = [] /\ s_issues st' = [].
Proof.
  intros T T' N He Ho. assert (Xe : xrel (eof_of src) (eof_of src')) by (split; [split; [split; [reflexivity|intros; reflexivity]|reflexivity]|exact He]).
  destruct (ahead_tokens src src [] o _ 0 T) as (st & E & A & O & I & D & P & _ & R). destruct (ahead_tokens src' src' [] o _ 0 T') as (st' & E' & A' & O' & I' & D' & P' & _ & R').
  exists st, st'. split; [exact E|]. split; [exact E'|]. split; [|auto].
  assert (Pk : s_peek st = None /\ s_peek st' = None).
  { unfold parser_new in E, E'. destruct (next_token (lex_new src)) as [[? ?] ?|]; [|discriminate]. destruct (next_token (lex_new src')) as [[? ?] ?|]; [|discriminate]. injection E as <-. injection E' as <-. auto. }
  destruct Pk as [Pk Pk'].
  assert (X : forall k, ahead st ((ts ++ [eof_of src]) ++ repeat (eof_of src) k)).
  { intros k. destruct (ahead_tokens src src [] o _ k T) as (st1 & E1 & A1 & _). rewrite E in E1. now injection E1 as <-. }
  assert (X' : forall k, ahead st' ((ts' ++ [eof_of src']) ++ repeat (eof_of src') k)).
  { intros k. destruct (ahead_tokens src' src' [] o _ k T') as (st1 & E1 & A1 & _). rewrite E' in E1. now injection E1 as <-. }
  assert (Nf : forall k, Forall2 xrel ((ts ++ [eof_of src]) ++ repeat (eof_of src) k) ((ts' ++ [eof_of src']) ++ repeat (eof_of src') k)).
  { intros k. apply Forall2_app; [apply Forall2_app; [exact N|repeat constructor; apply Xe]|]. now apply forall2_repeat. }
  destruct (ts ++ [eof_of src]) as [|x us] eqn:Eu; [now destruct ts|]. destruct (ts' ++ [eof_of src']) as [|x' us'] eqn:Eu'; [now destruct ts'|].
  assert (Y : (s_tok st, s_span st) = x /\ (s_tok st', s_span st') = x').
  { specialize (X 0). specialize (X' 0). unfold ahead in X, X'. cbn [app map] in X, X'. rewrite Pk in X. rewrite Pk' in X'. destruct X as [X _], X' as [X' _]. now rewrite <- X, X'. }
  destruct Y as [Y Y']. subst x x'. pose proof (Nf 0) as N0. cbn [app] in N0. assert (N00 : xrel (s_tok st, s_span st) (s_tok st', s_span st')) by (clear - N0; now inversion N0). destruct N00 as [N1 N2]. cbn [fst snd] in N1, N2.
  split.
  - exact N1.
  - exact N2.
  - rewrite Pk, Pk'. exact Logic.I.
  - intros k. exists (firstn k (us ++ repeat (eof_of src) k)), (firstn k (us' ++ repeat (eof_of src') k)). split; [rewrite firstn_length, app_length, repeat_length; lia|]. split; [|split].
    + apply lexes_firstn. specialize (X k). unfold ahead in X. cbn [app] in X. rewrite Pk in X. apply X.
    + apply lexes_firstn. specialize (X' k). unfold ahead in X'. cbn [app] in X'. rewrite Pk' in X'. apply X'.
    + specialize (Nf k). cbn [app] in Nf. apply forall2_firstn. clear - Nf. now inversion Nf.
  - split; [rewrite D; intros _; reflexivity|rewrite O; exact Ho].
  - rewrite I, I'. constructor.
  - now rewrite R, R'.
  - now rewrite D, D'.
  - now rewrite O, O'.
  - now rewrite P, P'.
Qed.
(** What follows for the outcomes. *)
Definition same_outcome {A} {RA : Respan A} (x y : outcome A) : Prop :=
  match x, y with
  | Returns a i, Returns a' i' => a' = respan lf a /\ Forall2 same_issue i i'
  | Panics w, Panics w' => w = w'
  | _, _ => False
  end.
Definition error_free {A} (x : outcome A) : Prop := match x with Returns _ i => filter err_issue i = [] | _ => False end.
Lemma outcomes A (RA : Respan A) (p : prog A) st st' : pr rm p p -> sr st st' -> s_issues st = [] -> s_issues st' = [] ->
  (lstrict = true \/ error_free (outcome_of (run p st)) \/ error_free (outcome_of (run p st'))) ->
  outcome_of (run p st) <> NoFuel -> outcome_of (run p st') <> NoFuel -> outcome_of (run p st) <> Panics PBadSlice -> outcome_of (run p st') <> Panics PBadSlice ->
  same_outcome (outcome_of (run p st)) (outcome_of (run p st')).
Proof.
  intros Hp Hs I I' Hc F F' B B'. assert (Z : ne st = 0) by (unfold ne; now rewrite I).
  destruct (Hp st st' Hs) as [C|[C|[C|(C0 & C1 & C2)]]].
  - destruct (run p st), (run p st'); cbn in C |- *; try contradiction; auto. destruct C as [C1 C2]. split; [exact C2|apply C1].
  - exfalso. destruct (run p st); cbn in C; try contradiction; destruct w; try contradiction; now apply B.
  - exfalso. destruct (run p st'); cbn in C; try contradiction; destruct w; try contradiction; now apply B'.
  - rewrite Z in *. destruct Hc as [Hc|[Hc|Hc]]; [congruence| |]; exfalso.
    + destruct (run p st); cbn in Hc, C1; try contradiction. unfold ne in C1. rewrite Hc in C1. cbn in C1. lia.
    + destruct (run p st'); cbn in Hc, C2; try contradiction. unfold ne in C2. rewrite Hc in C2. cbn in C2. lia.
Qed.
End Top.

(** ** Maps *)
(** The image of the last point that is not after [p]. *)
Fixpoint lastle (zs : list (nat * nat)) (p d : nat) : nat := match zs with (a, b) :: zs => if Nat.leb a p then lastle zs p b else d | [] => d end.
Definition before_ (x y : nat * nat) : Prop := (fst x < fst y /\ snd x <= snd y) \/ x = y.
Lemma lastle_ge zs p : forall d, Forall (fun x => d <= snd x) zs -> StronglySorted before_ zs -> d <= lastle zs p d.
Proof.
  induction zs as [|[a b] zs IH]; intros d F S; cbn [lastle]; [lia|]. destruct (Nat.leb a p); [|lia]. inversion F; subst. inversion S; subst. cbn [snd] in *.
  specialize (IH b). etransitivity; [|apply IH; auto]; [assumption|]. eapply Forall_impl; [|eassumption]. intros x [[_ H]| <-]; cbn in *; lia.
Qed.
Lemma lastle_mono zs p q : p <= q -> forall d, Forall (fun x => d <= snd x) zs -> StronglySorted before_ zs -> lastle zs p d <= lastle zs q d.
Proof.
  intros Hp. induction zs as [|[a b] zs IH]; intros d F S; [cbn [lastle]; lia|]. pose proof (lastle_ge ((a, b) :: zs) q d F S) as G. cbn [lastle] in *. destruct (Nat.leb_spec a p) as [H|H]; [|exact G].
  destruct (Nat.leb_spec a q); [|lia]. apply IH; [|now inversion S]. inversion S; subst. eapply Forall_impl; [|eassumption]. intros x [[_ H']| <-]; cbn in *; lia.
Qed.
Lemma lastle_same zs a b : Forall (before_ (a, b)) zs -> lastle zs a b = b.
Proof.
  intros F. induction F as [|[a' b'] zs H F IH]; cbn [lastle]; [reflexivity|]. destruct H as [[H1 H2]|H]; cbn [fst snd] in *.
  - destruct (Nat.leb_spec a' a); [lia|reflexivity].
  - injection H as <- <-. now rewrite Nat.leb_refl.
Qed.
Lemma lastle_in zs a b : In (a, b) zs -> StronglySorted before_ zs -> forall d, lastle zs a d = b.
Proof.
  induction zs as [|[a' b'] zs IH]; intros I S d; [destruct I|]. inversion S; subst. cbn [lastle]. destruct I as [I|I].
  - injection I as -> ->. rewrite Nat.leb_refl. now apply lastle_same.
  - assert (X : before_ (a', b') (a, b)) by (rewrite Forall_forall in H2; auto). assert (a' <= a) by (destruct X as [[X _]|X]; [cbn in X; lia|injection X as -> _; lia]).
    destruct (Nat.leb_spec a' a); [|lia]. now apply IH.
Qed.
