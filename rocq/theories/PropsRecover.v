(** C37: error recovery skips balanced brackets. *)
From Verif Require Export View PropsSafe.
Local Open Scope string_scope.
Local Open Scope list_scope.

(** ** Specification *)
Inductive bracket := Paren | Square | Brace.
Definition opener (b : bracket) : tok := match b with Paren => TLParen | Square => TLBracket | Brace => TLBrace end.
Definition closer (b : bracket) : tok := match b with Paren => TRParen | Square => TRBracket | Brace => TRBrace end.
Definition no_bracket (t : tok) : Prop := forall b, t <> opener b /\ t <> closer b.
(** [unclosed ts s]: [s] are the brackets that are open after [ts], the innermost first.  A
    closing bracket closes the innermost open bracket of its kind and all that was opened inside
    it; if there is none, it closes everything. *)
Inductive unclosed : list tok -> list bracket -> Prop :=
| un_nil : unclosed [] []
| un_plain ts s t : unclosed ts s -> no_bracket t -> unclosed (ts ++ [t]) s
| un_open ts s b : unclosed ts s -> unclosed (ts ++ [opener b]) (b :: s)
| un_close ts s1 s2 b : unclosed ts (s1 ++ b :: s2) -> ~ In b s1 -> unclosed (ts ++ [closer b]) s2
| un_stray ts s b : unclosed ts s -> ~ In b s -> unclosed (ts ++ [closer b]) [].
(** Where the recovery stops: at the first token that is acceptable as an end (and not inside
    brackets opened since), or at the statement delimiter or the end of the input. *)
Definition acceptable (e : tok -> bool) (ts : list tok) (t : tok) : Prop := unclosed ts [] /\ e t = true.
Definition skipped (e : tok -> bool) (delim : tok) (ts : list tok) : Prop :=
  forall a t b, ts = a ++ t :: b -> t <> TEof /\ t <> delim /\ ~ acceptable e a t.
Definition stops_after (e : tok -> bool) (delim : tok) (ts : list tok) (t : tok) (success : bool) : Prop :=
  skipped e delim ts /\
  if success then acceptable e ts t else (t = TEof \/ t = delim) /\ ~ acceptable e ts t.

(** Balanced sequences of tokens. *)
Inductive balanced : list tok -> Prop :=
| ba_nil : balanced []
| ba_plain t ts : no_bracket t -> balanced ts -> balanced (t :: ts)
| ba_group b ts us : balanced ts -> balanced us -> balanced (opener b :: ts ++ closer b :: us).
(** Balanced, and no acceptable end outside the brackets. *)
Inductive passed (e : tok -> bool) : list tok -> Prop :=
| pd_nil : passed e []
| pd_plain t ts : no_bracket t -> e t = false -> passed e ts -> passed e (t :: ts)
| pd_group b ts us : e (opener b) = false -> balanced ts -> passed e us -> passed e (opener b :: ts ++ closer b :: us).

(** ** The bracket stack *)
Lemma opener_inj a b : tok_eqb (opener a) (opener b) = true <-> a = b.
Proof. destruct a, b; cbn; split; congruence. Qed.
Lemma opener_eqb a b : tok_eqb (opener a) (opener b) = match a, b with Paren, Paren | Square, Square | Brace, Brace => true | _, _ => false end.
Proof. now destruct a, b. Qed.
Lemma pop_in b s1 s2 : ~ In b s1 -> pop_brackets (opener b) (map opener (s1 ++ b :: s2)) = map opener s2.
Proof.
  induction s1 as [|a s1 IH]; cbn [app map pop_brackets]; intros H.
  - now rewrite (proj2 (opener_inj b b)).
  - destruct (tok_eqb (opener a) (opener b)) eqn:E; [apply opener_inj in E; subst; exfalso; apply H; now left|]. apply IH. intros X. apply H. now right.
Qed.
Lemma pop_not_in b s : ~ In b s -> pop_brackets (opener b) (map opener s) = [].
Proof.
  induction s as [|a s IH]; cbn [map pop_brackets]; intros H; [reflexivity|].
  destruct (tok_eqb (opener a) (opener b)) eqn:E; [apply opener_inj in E; subst; exfalso; apply H; now left|]. apply IH. intros X. apply H. now right.
Qed.
Lemma bracket_dec (a b : bracket) : {a = b} + {a <> b}. Proof. decide equality. Qed.
Lemma first_in (b : bracket) s : In b s -> exists s1 s2, s = s1 ++ b :: s2 /\ ~ In b s1.
Proof.
  induction s as [|a s IH]; [easy|]. intros H. destruct (bracket_dec a b) as [->|N]; [exists [], s; auto|].
  destruct H as [H|H]; [contradiction|]. destruct (IH H) as (s1 & s2 & -> & X). exists (a :: s1), s2. split; [reflexivity|]. intros [Y|Y]; auto.
Qed.
(** What the code does with its stack at token [t]. *)
Definition push (t : tok) (s : list tok) : list tok :=
  match t with
  | TLParen => TLParen :: s | TLBracket => TLBracket :: s | TLBrace => TLBrace :: s
  | TRBrace => pop_brackets TLBrace s | TRBracket => pop_brackets TLBracket s | TRParen => pop_brackets TLParen s
  | _ => s
  end.
Lemma classify t : no_bracket t \/ (exists b, t = opener b) \/ exists b, t = closer b.
Proof.
  destruct t; try (left; intros []; split; discriminate); right; [left; exists Brace|left; exists Square|left; exists Paren| right; exists Brace|right; exists Square|right; exists Paren]; reflexivity.
Qed.
Lemma push_plain t s : no_bracket t -> push t s = s.
Proof. intros H. destruct t; try reflexivity; exfalso; [apply (proj1 (H Brace))|apply (proj1 (H Square))|apply (proj1 (H Paren))|apply (proj2 (H Brace))|apply (proj2 (H Square))|apply (proj2 (H Paren))]; reflexivity. Qed.
Lemma push_open b s : push (opener b) s = opener b :: s. Proof. now destruct b. Qed.
Lemma push_close b s : push (closer b) s = pop_brackets (opener b) s. Proof. now destruct b. Qed.
Lemma unclosed_step ts s t : unclosed ts s -> exists s', unclosed (ts ++ [t]) s' /\ push t (map opener s) = map opener s'.
Proof.
  intros H. destruct (classify t) as [N|[[b ->]|[b ->]]].
  - exists s. split; [now apply un_plain|now apply push_plain].
  - exists (b :: s). split; [now apply un_open|apply push_open].
  - rewrite push_close. destruct (in_dec bracket_dec b s) as [I|I].
    + destruct (first_in _ _ I) as (s1 & s2 & -> & X). exists s2. split; [eapply un_close; eauto|now apply pop_in].
    + exists []. split; [eapply un_stray; eauto|now apply pop_not_in].
Qed.
Lemma map_opener_inj s : forall s', map opener s = map opener s' -> s = s'.
Proof. induction s as [|a s IH]; intros [|b s'] H; try discriminate; [reflexivity|]. cbn in H. injection H as H1 H2. f_equal; [|now apply IH]. destruct a, b; try reflexivity; discriminate H1. Qed.
Lemma snoc_inj A (a b : list A) x y : a ++ [x] = b ++ [y] -> a = b /\ x = y.
Proof. intros H. apply app_inj_tail in H. exact H. Qed.
Lemma unclosed_snoc ts t s' : unclosed (ts ++ [t]) s' -> exists s, unclosed ts s /\ map opener s' = push t (map opener s).
Proof.
  intros H. remember (ts ++ [t]) as l eqn:E. destruct H as [|l s x H N|l s b H|l s1 s2 b H N|l s b H N].
  - now destruct ts.
  - apply snoc_inj in E as [-> ->]. exists s. split; [exact H|]. now rewrite push_plain.
  - apply snoc_inj in E as [-> <-]. exists s. split; [exact H|]. now rewrite push_open.
  - apply snoc_inj in E as [-> <-]. exists (s1 ++ b :: s2). split; [exact H|]. now rewrite push_close, pop_in.
  - apply snoc_inj in E as [-> <-]. exists s. split; [exact H|]. now rewrite push_close, pop_not_in.
Qed.
Lemma unclosed_nil s : unclosed [] s -> s = [].
Proof. intros H. remember [] as l eqn:E. destruct H as [|l s x H N|l s b H|l s1 s2 b H N|l s b H N]; [reflexivity|..]; now destruct l. Qed.
(** Which brackets are open is well defined. *)
Lemma unclosed_unique ts : forall s s', unclosed ts s -> unclosed ts s' -> s = s'.
Proof.
  induction ts as [|t ts IH] using rev_ind; intros s s' H H'.
  - now rewrite (unclosed_nil _ H), (unclosed_nil _ H').
  - apply unclosed_snoc in H as (u & U1 & U2), H' as (u' & V1 & V2). rewrite (IH _ _ U1 V1) in U2. apply map_opener_inj. congruence.
Qed.
Lemma unclosed_total ts : exists s, unclosed ts s.
Proof. induction ts as [|t ts [s IH]] using rev_ind; [exists []; constructor|]. destruct (unclosed_step _ _ t IH) as (s' & H & _). eauto. Qed.

(** ** The recovery *)
Lemma recover_unfold n e bs st : recover_f (S n) e bs st =
  if (match bs with [] => true | _ => false end) && e (s_tok st) then XOk true st
  else if tok_eqb (s_tok st) TEof then XOk false st
  else if tok_eqb (s_tok st) (s_delim st) then XOk false st
  else match p_next st with XOk _ st' => recover_f n e (push (s_tok st) bs) st' | XPanic w => XPanic w | XFuel => XFuel end.
Proof. cbn [recover_f]. destruct (s_tok st); reflexivity. Qed.
Lemma next_ahead st st' : p_next st = XOk tt st' -> same st st' /\
  forall ts, ahead st ((s_tok st, s_span st) :: ts) <-> ahead st' ts.
Proof.
  unfold p_next. destruct (s_peek st) as [[t s]|] eqn:P.
  - intros H. injection H as <-. split; [now constructor|]. intros ts. cbn [ahead]. rewrite P. destruct ts as [|y ts]; [cbn; tauto|]. cbn. tauto.
  - destruct (next_token (s_lex st)) as [[t s] l|] eqn:E; [|discriminate]. intros H. injection H as <-. split; [now constructor|]. intros ts. cbn [ahead]. rewrite P.
    destruct ts as [|y ts]; [cbn; tauto|]. cbn [lexes ahead s_tok s_span s_peek s_lex]. split.
    + intros [_ (l' & E' & H)]. rewrite E in E'. injection E' as <- <-. auto.
    + intros [-> H]. split; [reflexivity|]. rewrite E. eauto.
Qed.
Definition enough (n : nat) (st : pst) : Prop :=
  lwf (s_lex st) /\ (s_tok st = TEof /\ 1 <= n \/ length (l_rest (s_lex st)) + 2 + (match s_peek st with Some _ => 1 | None => 0 end) <= n).
Lemma next_enough n st st' : enough (S n) st -> s_tok st <> TEof -> p_next st = XOk tt st' -> enough n st'.
Proof.
  intros [W [[E _]|L]] N; [contradiction|]. unfold p_next. destruct (s_peek st) as [[t s]|].
  - intros H. injection H as <-. split; [exact W|right]. cbn. lia.
  - pose proof (next_token_spec _ W) as X. destruct (next_token (s_lex st)) as [[t s] l|]; [|discriminate].
    destruct (token_at_facts _ _ _ _ W X) as (W' & _ & _ & _ & _ & _ & _ & G & _ & _). intros H. injection H as <-. split; [exact W'|]. cbn.
    destruct (tok_eqb t TEof) eqn:T; [left; apply tok_eqb_eq in T; split; [exact T|lia]|right].
    assert (t <> TEof) by (intros ->; discriminate). specialize (G H). lia.
Qed.
Definition recovers (e : tok -> bool) (before : list tok) (st : pst) (r : xres bool) : Prop :=
  match r with
  | XOk ok st' => exists pre x, same st st' /\ ahead st (pre ++ [x]) /\ (forall ts, ahead st (pre ++ ts) <-> ahead st' ts) /\
      s_tok st' = fst x /\
      (forall a t b, map fst pre = a ++ t :: b -> t <> TEof /\ t <> s_delim st /\ ~ acceptable e (before ++ a) t) /\
      (if ok then acceptable e (before ++ map fst pre) (fst x) else (fst x = TEof \/ fst x = s_delim st) /\ ~ acceptable e (before ++ map fst pre) (fst x))
  | XPanic _ => exists pre, ahead st pre /\ (forall x, ~ ahead st (pre ++ [x])) /\
      (forall a t b, map fst pre = a ++ t :: b -> t <> TEof /\ t <> s_delim st /\ ~ acceptable e (before ++ a) t)
  | XFuel => False
  end.
Lemma recover_spec e n : forall bs s before st, enough n st -> unclosed before s -> bs = map opener s -> recovers e before st (recover_f n e bs st).
Proof.
  induction n as [|n IH]; intros bs s before st L U ->; [destruct L as [_ [[_ L]|L]]; lia|]. rewrite recover_unfold.
  assert (A : acceptable e before (s_tok st) <-> (match map opener s with [] => true | _ => false end) && e (s_tok st) = true).
  { unfold acceptable. rewrite andb_true_iff. split; intros [X Y]; split; auto.
    - now rewrite (unclosed_unique _ _ _ U X).
    - destruct s; [exact U|discriminate]. }
  assert (Stop : forall ok, (if ok : bool then acceptable e before (s_tok st) else (s_tok st = TEof \/ s_tok st = s_delim st) /\ ~ acceptable e before (s_tok st)) -> recovers e before st (XOk ok st)).
  { intros ok H. exists [], (s_tok st, s_span st). split; [apply same_refl|]. split; [split; [reflexivity|destruct (s_peek st); exact I]|].
    split; [reflexivity|]. split; [reflexivity|]. split; [now intros [|? ?]|]. cbn. now rewrite app_nil_r. }
  destruct (_ && _) eqn:E1; [apply Stop; now apply A|].
  assert (NA : ~ acceptable e before (s_tok st)) by (intros X; apply A in X; discriminate).
  destruct (tok_eqb (s_tok st) TEof) eqn:E2; [apply Stop; apply tok_eqb_eq in E2; auto|].
  destruct (tok_eqb (s_tok st) (s_delim st)) eqn:E3; [apply Stop; apply tok_eqb_eq in E3; auto|].
  assert (N2 : s_tok st <> TEof) by (intros X; rewrite X in E2; discriminate).
  assert (N3 : s_tok st <> s_delim st) by (intros X; apply tok_eqb_eq in X; congruence).
  destruct (p_next st) as [[] st1|w|] eqn:En; [| |unfold p_next in En; destruct (s_peek st) as [[]|]; [discriminate|destruct (next_token _) as [[]|]; discriminate]].
  2:{ exists [(s_tok st, s_span st)]. unfold p_next in En. destruct (s_peek st) as [[]|] eqn:P; [discriminate|]. destruct (next_token _) as [[]|w'] eqn:E; [discriminate|].
      split; [split; [reflexivity|rewrite P; exact I]|]. split; [intros x [_ X]; rewrite P in X; destruct X as (l' & X & _); congruence|].
      intros [|t0 a] t b Ea; cbn in Ea; injection Ea as <- Ea; [rewrite app_nil_r; auto|now destruct a]. }
  destruct (unclosed_step _ _ (s_tok st) U) as (s' & U' & Es). pose proof (next_ahead _ _ En) as [Sm Ah]. pose proof (next_enough _ _ _ L N2 En) as L'.
  specialize (IH _ s' (before ++ [s_tok st]) st1 L' U' Es). destruct (recover_f n e _ st1) as [ok st'|w|]; cbn [recovers] in *; auto.
  2:{ destruct IH as (pre & H1 & H2 & H4). exists ((s_tok st, s_span st) :: pre). split; [now apply Ah|]. split; [intros x X; apply Ah in X; exact (H2 x X)|].
      rewrite (sm_delim _ _ Sm) in *. cbn [map fst]. intros [|t0 a] t b E; cbn in E; injection E as <- E; [rewrite app_nil_r; auto|]. specialize (H4 a t b E). now rewrite <- app_assoc in H4. }
  destruct IH as (pre & x & S1 & H1 & H2 & H3 & H4 & H5). exists ((s_tok st, s_span st) :: pre), x.
  split; [eapply same_trans; eauto|]. split; [now apply Ah|]. split; [intros ts; rewrite <- H2; apply Ah|]. split; [exact H3|].
  rewrite (sm_delim _ _ Sm), <- app_assoc in *. cbn [map fst app] in *. split; [|exact H5].
  intros [|t0 a] t b E; cbn in E; injection E as <- E; [rewrite app_nil_r; auto|]. specialize (H4 a t b E). now rewrite <- app_assoc in H4.
Qed.

(** ** C37 *)
(** The tokens ahead of the parser begin with [pre]; after [pre] it is in state [st']. *)
Definition moves (st : pst) (pre : tks) (st' : pst) : Prop :=
  same st st' /\ forall ts, ahead st (pre ++ ts) <-> ahead st' ts.
(** Whatever the tokens ahead, recovery reads up to where the specification says and nothing else. *)
Theorem C37_recover : forall e st, lwf (s_lex st) ->
  match run (recover e) st with
  | ROk _ st' => exists pre, moves st pre st' /\ stops_after e (s_delim st) (map fst pre) (s_tok st') true
  | RErr st' => exists pre, moves st pre st' /\ stops_after e (s_delim st) (map fst pre) (s_tok st') false
  | RPanic _ => exists pre, skipped e (s_delim st) (map fst pre) /\ ahead st pre /\ forall x, ~ ahead st (pre ++ [x])
  | RFuel => False
  end.
Proof.
  intros e st W. unfold recover. rewrite run_bind, run_perf. cbn [exec].
  assert (L : enough (rec_fuel st) st) by (split; [exact W|right; unfold rec_fuel; destruct (s_peek st); lia]).
  pose proof (recover_spec e (rec_fuel st) [] [] [] st L un_nil eq_refl) as H.
  destruct (recover_f _ e [] st) as [ok st'|w|]; cbn [recovers] in H; auto; [|destruct H as (pre & ? & ? & ?); exists pre; auto].
  destruct H as (pre & x & H1 & H2 & H3 & H4 & H5 & H6). rewrite <- H4 in H6. destruct ok; exists pre; (split; [now split|split; [exact H5|exact H6]]).
Qed.

(** ** Balanced sequences *)
Lemma push_app ts : forall us s, fold_left (fun s t => push t s) (ts ++ us) s = fold_left (fun s t => push t s) us (fold_left (fun s t => push t s) ts s).
Proof. intros us s. apply fold_left_app. Qed.
Lemma unclosed_iff ts s : unclosed ts s <-> fold_left (fun s t => push t s) ts [] = map opener s.
Proof.
  revert s. induction ts as [|t ts IH] using rev_ind; intros s.
  - cbn. split; [|destruct s; [constructor|discriminate]]. intros H. now rewrite (unclosed_unique _ _ _ H un_nil).
  - rewrite fold_left_app. cbn [fold_left]. split.
    + intros H. apply unclosed_snoc in H as (u & U & E). apply IH in U. now rewrite U, E.
    + intros H. destruct (unclosed_total ts) as [u U]. pose proof (proj1 (IH u) U) as F. rewrite F in H.
      destruct (unclosed_step _ _ t U) as (s' & U' & E). rewrite E in H. apply map_opener_inj in H. now subst.
Qed.
Lemma balanced_push ts : balanced ts -> forall s, fold_left (fun s t => push t s) ts s = s.
Proof.
  induction 1 as [|t ts N H IH|b ts us H IH H' IH']; intros s; [reflexivity| |].
  - cbn [fold_left]. rewrite push_plain; auto.
  - cbn [fold_left]. rewrite fold_left_app. cbn [fold_left]. rewrite push_open, IH, push_close. cbn [pop_brackets]. rewrite (proj2 (opener_inj b b)) by reflexivity. apply IH'.
Qed.
(** Inside a group something is open: a prefix of a balanced sequence only adds to the stack. *)
Lemma balanced_prefix ts : balanced ts -> forall a c s, ts = a ++ c -> exists p, fold_left (fun s t => push t s) a s = p ++ s.
Proof.
  induction 1 as [|t ts N H IH|b ts us H IH H' IH']; intros a c s E.
  - destruct a; [|discriminate]. now exists [].
  - destruct a as [|x a]; [now exists []|]. cbn in E. injection E as <- E. cbn [fold_left]. rewrite push_plain by auto. eauto.
  - destruct a as [|x a]; [now exists []|]. cbn in E. injection E as <- E. cbn [fold_left]. rewrite push_open.
    destruct (app_eq_app _ _ _ _ E) as [l [[E1 E2]|[E1 E2]]].
    + destruct (IH a l (opener b :: s) E1) as [p P]. rewrite P. exists (p ++ [opener b]). now rewrite <- app_assoc.
    + subst a. rewrite fold_left_app, (balanced_push _ H). destruct l as [|y l]; [exists [opener b]; reflexivity|].
      cbn in E2. injection E2 as <- E2. cbn [fold_left]. rewrite push_close. cbn [pop_brackets]. rewrite (proj2 (opener_inj b b)) by reflexivity. eauto.
Qed.
Lemma passed_balanced e ts : passed e ts -> balanced ts.
Proof. induction 1; [apply ba_nil|now apply ba_plain|now apply ba_group]. Qed.
Lemma balanced_unclosed ts : balanced ts -> unclosed ts [].
Proof. intros H. apply unclosed_iff. now apply balanced_push. Qed.
Lemma passed_not e ts : passed e ts -> forall a t c, ts = a ++ t :: c -> ~ acceptable e a t.
Proof.
  intros H. induction H as [|t ts N E H IH|b ts us E B H IH]; intros a x c Ea [U X].
  - now destruct a.
  - destruct a as [|y a]; cbn in Ea; injection Ea as <- Ea; [congruence|]. apply (IH a x c Ea). split; [|exact X].
    apply unclosed_iff in U. apply unclosed_iff. cbn [fold_left] in U. now rewrite push_plain in U.
  - destruct a as [|y a]; cbn in Ea; injection Ea as <- Ea; [congruence|]. apply unclosed_iff in U. cbn [fold_left] in U. rewrite push_open in U.
    destruct (app_eq_app _ _ _ _ Ea) as [l [[E1 E2]|[E1 E2]]].
    + destruct (balanced_prefix _ B a l [opener b] E1) as [p P]. rewrite P in U. destruct p; discriminate.
    + subst a. rewrite fold_left_app, (balanced_push _ B) in U. destruct l as [|z l]; [discriminate U|].
      cbn in E2. injection E2 as <- E2. cbn [fold_left] in U. rewrite push_close in U. cbn [pop_brackets] in U. rewrite (proj2 (opener_inj b b)) in U by reflexivity.
      apply (IH l x c E2). split; [|exact X]. now apply unclosed_iff.
Qed.
(** What is skipped is determined by the tokens ahead. *)
Lemma stops_unique e d a t a' t' ok ok' r r' : stops_after e d a t ok -> stops_after e d a' t' ok' -> a ++ t :: r = a' ++ t' :: r' -> a = a' /\ ok = ok'.
Proof.
  assert (G : forall a t l ok ok' t', stops_after e d a t ok -> stops_after e d (a ++ t :: l) t' ok' -> False).
  { intros a0 t0 l ok0 ok1 t1 [_ S] [S' _]. destruct (S' a0 t0 l eq_refl) as (N1 & N2 & N3). destruct ok0; [contradiction|]. destruct S as [[S|S] _]; contradiction. }
  intros H H' E. destruct (app_eq_app _ _ _ _ E) as [l [[E1 E2]|[E1 E2]]]; destruct l as [|x l].
  - rewrite app_nil_r in E1. subst a'. injection E2 as <- _. split; [reflexivity|]. destruct H as [_ H], H' as [_ H'], ok, ok'; tauto.
  - injection E2 as <- _. subst a. exfalso. exact (G _ _ _ _ _ _ H' H).
  - rewrite app_nil_r in E1. subst a'. injection E2 as -> _. split; [reflexivity|]. destruct H as [_ H], H' as [_ H'], ok, ok'; tauto.
  - injection E2 as <- _. subst a'. exfalso. exact (G _ _ _ _ _ _ H H').
Qed.
Lemma passed_stops e d ts t : passed e ts -> ~ In TEof ts -> ~ In d ts -> e t = true -> stops_after e d ts t true.
Proof.
  intros P N1 N2 E. split; [|split; [apply balanced_unclosed; now apply (passed_balanced e)|exact E]].
  intros a x b ->. split; [intros ->; apply N1, in_elt|]. split; [intros ->; apply N2, in_elt|]. eapply passed_not; eauto.
Qed.
Lemma ahead_app st ts us : ahead st (ts ++ us) -> ahead st ts.
Proof.
  destruct ts as [|x ts]; [intros; exact I|]. cbn [app ahead]. intros [-> H]. split; [reflexivity|]. destruct (s_peek st).
  - destruct ts as [|y ts]; [exact I|]. cbn [app] in H. destruct H as [-> H]. split; [reflexivity|]. eapply lexes_app; eauto.
  - eapply lexes_app; eauto.
Qed.
Lemma lexes_det l ts : forall us, lexes l ts -> lexes l us -> length ts = length us -> ts = us.
Proof.
  revert l. induction ts as [|x ts IH]; intros l [|y us] H1 H2 L; try discriminate; [reflexivity|]. destruct H1 as (l1 & E1 & H1), H2 as (l2 & E2 & H2).
  rewrite E1 in E2. injection E2 as <- <-. cbn in L. f_equal. apply (IH l1); auto.
Qed.
Lemma ahead_det st ts us : ahead st ts -> ahead st us -> length ts = length us -> ts = us.
Proof.
  destruct ts as [|x ts], us as [|y us]; intros H1 H2 L; try discriminate; [reflexivity|]. destruct H1 as [-> H1], H2 as [-> H2]. cbn in L. f_equal.
  destruct (s_peek st) as [p|].
  - destruct ts as [|x ts], us as [|y us]; try discriminate; [reflexivity|]. destruct H1 as [-> H1], H2 as [-> H2]. f_equal. apply (lexes_det (s_lex st)); auto. cbn in L. lia.
  - apply (lexes_det (s_lex st)); auto; lia.
Qed.
(** Two views of the same tokens: one is a prefix of the other. *)
Lemma ahead_prefix st ts us : ahead st ts -> ahead st us -> exists r, ts = us ++ r \/ us = ts ++ r.
Proof.
  intros H1 H2. destruct (Nat.le_ge_cases (length us) (length ts)) as [L|L].
  - exists (skipn (length us) ts). left. rewrite <- (firstn_skipn (length us) ts) at 1. f_equal.
    apply (ahead_det st); auto; [apply (ahead_app st _ (skipn (length us) ts)); now rewrite firstn_skipn|now rewrite firstn_length_le].
  - exists (skipn (length ts) us). right. rewrite <- (firstn_skipn (length ts) us) at 1. f_equal.
    apply (ahead_det st); auto; [apply (ahead_app st _ (skipn (length ts) us)); now rewrite firstn_skipn|now rewrite firstn_length_le].
Qed.
(** With known tokens ahead: brackets are skipped as a whole. *)
Lemma recover_known e st pre x ts ok : lwf (s_lex st) -> ahead st (pre ++ x :: ts) -> stops_after e (s_delim st) (map fst pre) (fst x) ok ->
  exists st', run (recover e) st = (if ok then ROk tt st' else RErr st') /\ moves st pre st' /\ ahead st' (x :: ts).
Proof.
  intros W A S. pose proof (C37_recover e st W) as H.
  assert (G : forall pre' st' ok', moves st pre' st' -> stops_after e (s_delim st) (map fst pre') (s_tok st') ok' -> pre' = pre /\ ok' = ok).
  { intros pre' st' ok' [M1 M2] S'. set (y := (s_tok st', s_span st')).
    assert (A' : ahead st (pre' ++ [y])) by (apply M2; split; [reflexivity|destruct (s_peek st'); exact I]).
    assert (E : exists r r', map fst pre' ++ fst y :: r = map fst pre ++ fst x :: r').
    { destruct (ahead_prefix _ _ _ A A') as [r [E|E]].
      - exists (map fst r), (map fst ts). apply (f_equal (map fst)) in E. rewrite !map_app, <- app_assoc in E. now cbn in *.
      - exists [], (map fst (ts ++ r)). apply (f_equal (map fst)) in E. rewrite !map_app, <- app_assoc in E. cbn in *. now rewrite map_app. }
    destruct E as (r & r' & E). destruct (stops_unique _ _ _ _ _ _ _ _ _ _ S' S E) as [E1 E2]. split; [|exact E2].
    apply (ahead_det st); [now apply ahead_app in A'|now apply ahead_app in A|]. apply (f_equal (@length tok)) in E1. now rewrite !map_length in E1. }
  destruct (run (recover e) st) as [[] st'|st'|w|]; try contradiction.
  - destruct H as (pre' & M & S'). destruct (G _ _ _ M S') as [-> <-]. exists st'. split; [reflexivity|]. split; [exact M|]. now apply M.
  - destruct H as (pre' & M & S'). destruct (G _ _ _ M S') as [-> <-]. exists st'. split; [reflexivity|]. split; [exact M|]. now apply M.
  - exfalso. destruct H as (pre' & S' & A' & N). destruct (ahead_prefix _ _ _ A A') as [[|z r] [E|E]].
    + rewrite app_nil_r in E. subst pre'. rewrite map_app in S'. destruct (S' (map fst pre) (fst x) (map fst ts) eq_refl) as (N1 & N2 & N3).
      destruct S as [_ S]. destruct ok; [contradiction|]. destruct S as [[S|S] _]; contradiction.
    + rewrite app_nil_r in E. subst pre'. rewrite map_app in S'. destruct (S' (map fst pre) (fst x) (map fst ts) eq_refl) as (N1 & N2 & N3).
      destruct S as [_ S]. destruct ok; [contradiction|]. destruct S as [[S|S] _]; contradiction.
    + apply (N z). rewrite E in A. change (z :: r) with ([z] ++ r) in A. rewrite app_assoc in A. now apply ahead_app in A.
    + subst pre'. rewrite !map_app, <- app_assoc in S'. destruct (S' (map fst pre) (fst x) (map fst ts ++ map fst (z :: r)) eq_refl) as (N1 & N2 & N3).
      destruct S as [_ S]. destruct ok; [contradiction|]. destruct S as [[S|S] _]; contradiction.
Qed.
Theorem C37_balanced : forall e st pre x ts, lwf (s_lex st) -> ahead st (pre ++ x :: ts) ->
  passed e (map fst pre) -> ~ In TEof (map fst pre) -> ~ In (s_delim st) (map fst pre) -> e (fst x) = true ->
  exists st', run (recover e) st = ROk tt st' /\ moves st pre st' /\ ahead st' (x :: ts).
Proof.
  intros e st pre x ts W A P N1 N2 E. exact (recover_known e st pre x ts true W A (passed_stops _ _ _ _ P N1 N2 E)).
Qed.
(** An element of a list that fails, or that is not followed by an acceptable end: what follows
    the next end is parsed normally. *)
Theorem C37_recovered : forall A (d : A) expected e p st st1 pre x ts, run p st = RErr st1 -> lwf (s_lex st1) ->
  ahead st1 (pre ++ x :: ts) -> stops_after e (s_delim st1) (map fst pre) (fst x) true ->
  exists st', run (recovered d expected e p) st = ROk d st' /\ moves st1 pre st' /\ ahead st' (x :: ts).
Proof.
  intros A d expected e p st st1 pre x ts H W Ah S. destruct (recover_known e st1 pre x ts true W Ah S) as (st' & R & M & A').
  exists st'. split; [|split; [exact M|exact A']]. unfold recovered. rewrite run_bind, run_try, H, run_bind, R. cbn [run].
  rewrite run_bind. unfold recovered_end. rewrite run_bind, run_token. destruct A' as [E _]. destruct S as [_ [_ S]]. rewrite E in S. cbn in S. now rewrite S.
Qed.
Theorem C37_recovered_trailing : forall A (d a : A) expected e p st st1 pre x ts, run p st = ROk a st1 -> lwf (s_lex st1) ->
  ahead st1 (pre ++ x :: ts) -> stops_after e (s_delim st1) (map fst pre) (fst x) true -> e (s_tok st1) = false ->
  slice (s_isrc st1) (fst (s_span st1)) (snd (s_span st1)) <> None ->
  exists st' i, run (recovered d expected e p) st = ROk a st' /\ ahead st' (x :: ts) /\
    s_issues st' = s_issues st1 ++ [i] /\ i_level i = Error /\ i_span i = s_span st1.
Proof.
  intros A d a expected e p st st1 pre x ts H W Ah S E Hw. unfold recovered. rewrite run_bind, run_try, H. cbn [run]. rewrite run_bind. unfold recovered_end.
  rewrite run_bind, run_token, E, run_bind. unfold expected_error. rewrite run_bind, run_span. unfold err_frags. rewrite run_perf. cbn [exec]. unfold p_issue.
  destruct (slice _ _ _) as [w|]; [|congruence]. cbn [build_frags].
  match goal with |- context [run _ (set_issues st1 ?l)] => set (st2 := set_issues st1 l) end.
  destruct (recover_known e st2 pre x ts true) as (st' & R & [M _] & A'); [exact W|exact Ah|exact S|]. rewrite R. 
  eexists _, _. split; [reflexivity|]. split; [exact A'|]. rewrite (sm_issues _ _ M). split; [reflexivity|]. now split.
Qed.
Theorem C37_fails : forall e st pre x ts, lwf (s_lex st) -> ahead st (pre ++ x :: ts) ->
  stops_after e (s_delim st) (map fst pre) (fst x) false ->
  exists st', run (recover e) st = RErr st' /\ moves st pre st' /\ ahead st' (x :: ts).
Proof. intros e st pre x ts W A S. exact (recover_known e st pre x ts false W A S). Qed.

(** ** The hypothesis [lwf] holds in every state the parser gets into *)
Lemma next_lwf st st' : lwf (s_lex st) -> p_next st = XOk tt st' -> lwf (s_lex st').
Proof.
  intros W. unfold p_next. destruct (s_peek st) as [[t s]|]; [intros H; now injection H as <-|].
  pose proof (next_token_spec _ W) as X. destruct (next_token (s_lex st)) as [[t s] l|]; [|discriminate].
  intros H. injection H as <-. cbn. now apply (token_at_facts _ _ _ _ W X).
Qed.
Lemma issue_lwf l t s fr st st' : lwf (s_lex st) -> p_issue l t s fr st = XOk tt st' -> lwf (s_lex st').
Proof. intros W. unfold p_issue. destruct (slice _ _ _); [|discriminate]. destruct (build_frags _ _); [|discriminate]. intros H. now injection H as <-. Qed.
Lemma recover_lwf n e : forall b st x st', lwf (s_lex st) -> recover_f n e b st = XOk x st' -> lwf (s_lex st').
Proof.
  induction n as [|n IH]; intros b st x st' W; [discriminate|]. rewrite recover_unfold.
  destruct (_ && _); [intros H; now injection H as _ <-|]. destruct (tok_eqb _ _); [intros H; now injection H as _ <-|]. destruct (tok_eqb _ _); [intros H; now injection H as _ <-|].
  destruct (p_next st) as [[] st1|w|] eqn:E; try discriminate. apply IH. eapply next_lwf; eauto.
Qed.
Lemma exec_lwf X (o : op X) st x st' : lwf (s_lex st) -> exec o st = XOk x st' -> lwf (s_lex st').
Proof.
  intros W. destruct o; cbn [exec]; try (intros H; injection H as _ <-; exact W).
  - destruct x. now apply next_lwf.
  - unfold p_peek. destruct (s_peek st) as [[t s]|]; [intros H; now injection H as _ <-|].
    pose proof (next_token_spec _ W) as X. destruct (next_token (s_lex st)) as [[t s] l|]; [|discriminate].
    intros H. injection H as _ <-. cbn. now apply (token_at_facts _ _ _ _ W X).
  - destruct x. now apply issue_lwf.
  - destruct x. destruct (o_warn_unquoted _); [now apply issue_lwf|]. intros H; now injection H as <-.
  - destruct x. destruct (_ && _); [now apply issue_lwf|]. intros H; now injection H as <-.
  - now apply recover_lwf.
  - unfold p_stdin. destruct (read_from_stdin_spec _ W) as (d & sp & l' & E & A). rewrite E. apply stdin_at_adv in A as (w & A). pose proof (adv_lwf _ _ _ W A) as W'.
    destruct (p_next _) as [[] st1| |] eqn:E2; try discriminate. intros H; injection H as _ <-. apply next_lwf in E2; auto.
Qed.
Theorem C37_reachable : forall A (p : prog A) st, lwf (s_lex st) ->
  match run p st with ROk _ st' | RErr st' => lwf (s_lex st') | _ => True end.
Proof.
  induction p as [A a|A|A w|A|A X o k IH|A X p IHp k IH]; intros st W; cbn [run]; try exact W; try exact I.
  - destruct (exec o st) as [x st1| |] eqn:E; try exact I. apply IH. eapply exec_lwf; eauto.
  - specialize (IHp st W). destruct (run p st) as [x st1|st1| |]; try exact I; now apply IH.
Qed.
Lemma parser_new_lwf src isrc issues o : match parser_new src isrc issues o with XOk st _ => lwf (s_lex st) | _ => True end.
Proof.
  unfold parser_new. assert (W : lwf (lex_new src)) by (exists []; split; reflexivity).
  pose proof (next_token_spec _ W) as X. destruct (next_token (lex_new src)) as [[t s] l|]; [|exact I]. cbn. now apply (token_at_facts _ _ _ _ W X).
Qed.

(** ** Lists with erroneous elements *)
(** [element p d ts r]: reading [ts] and what separates it from the next element, [p] returns an
    element, or fails somewhere; what is left then is skipped by the recovery. *)
Definition separator (t : tok) : Prop := t = TComma \/ t = TRParen.
Definition element {A} (p : prog A) (o : options) (d : tok) (ts : tks) (r : option A) : Prop :=
  forall st sep rest, lwf (s_lex st) -> s_opts st = o -> s_delim st = d -> separator (fst sep) -> ahead st (ts ++ sep :: rest) ->
  match run p st with
  | ROk a st1 => r = Some a /\ s_delim st1 = d /\ ahead st1 (sep :: rest)
  | RErr st1 => r = None /\ s_delim st1 = d /\ exists pre, ahead st1 (pre ++ sep :: rest) /\ skipped rparen_or_comma d (map fst pre) /\ unclosed (map fst pre) []
  | RPanic _ => True
  | RFuel => False
  end.
Inductive elements {A} (p : prog A) (o : options) (d : tok) : tks -> list (option A) -> Prop :=
| el_one ts r : element p o d ts r -> elements p o d ts [r]
| el_more ts r s us rs : element p o d ts r -> elements p o d us rs -> elements p o d (ts ++ (TComma, s) :: us) (r :: rs).
Definition kept {A} (rs : list (option A)) : list A := flat_map (fun r => match r with Some a => [a] | None => [] end) rs.
Lemma element_run A (p : prog A) o d ts r st sep rest ex : element p o d ts r -> lwf (s_lex st) -> s_opts st = o -> s_delim st = d -> separator (fst sep) -> ahead st (ts ++ sep :: rest) ->
  match run (recovered None ex rparen_or_comma (a <- p ;; Ret (Some a))) st with
  | ROk r' st' => r' = r /\ lwf (s_lex st') /\ s_opts st' = o /\ s_delim st' = d /\ ahead st' (sep :: rest)
  | RPanic _ => True | _ => False end.
Proof.
  intros H W O D Hs Ah. specialize (H st sep rest W O D Hs Ah). assert (Es : rparen_or_comma (fst sep) = true) by (destruct Hs as [-> | ->]; reflexivity).
  pose proof (C37_reachable _ p st W) as W1. pose proof (run_grown _ p st) as G.
  destruct (run p st) as [a st1|st1|w|] eqn:R; try contradiction.
  - destruct H as (-> & D1 & A1).
    unfold recovered. rewrite run_bind, run_try, run_bind, R. cbn [run]. rewrite run_bind. unfold recovered_end. rewrite run_bind, run_token.
    pose proof A1 as [E _]. rewrite E in Es. cbn in Es. rewrite Es. cbn [run]. destruct G as (_ & -> & _). auto.
  - destruct H as (-> & D1 & pre & A1 & Sk & U).
    destruct (C37_recovered _ (@None A) ex rparen_or_comma (a <- p ;; Ret (Some a)) st st1 pre sep rest) as (st' & R' & [M _] & A').
    + rewrite run_bind, R. reflexivity.
    + exact W1.
    + exact A1.
    + rewrite D1. split; [exact Sk|]. split; [exact U|exact Es].
    + pose proof (C37_reachable _ (recovered None ex rparen_or_comma (a <- p ;; Ret (Some a))) st W) as W2. rewrite R' in W2 |- *. split; [reflexivity|].
      rewrite (sm_opts _ _ M), (sm_delim _ _ M). destruct G as (_ & -> & _). auto.
  - unfold recovered. rewrite run_bind, run_try, run_bind, R. exact I.
Qed.
Definition list_step {A} (p : prog A) (l : list A) : prog (list A + list A) :=
  a <- recovered None "')' or ','" rparen_or_comma (a <- p ;; Ret (Some a)) ;;
  let l := match a with Some a => l ++ [a] | None => l end in
  c <- skip_token TComma ;;
  match c with Some _ => Ret (inl l) | None => Ret (inr l) end.
Lemma list_run A (p : prog A) o d ts rs s rest : elements p o d ts rs -> forall st n acc, lwf (s_lex st) -> s_opts st = o -> s_delim st = d ->
  ahead st (ts ++ (TRParen, s) :: rest) -> length rs <= n ->
  match run (loop n (list_step p) acc) st with ROk l st' => l = acc ++ kept rs /\ ahead st' ((TRParen, s) :: rest) | RPanic _ => True | _ => False end.
Proof.
  intros H.
  induction H as [ts r H|ts r s' us rs H HR IH]; intros st n acc W O D Ah L; (destruct n as [|n]; [cbn in L; lia|]); cbn [loop]; rewrite run_bind; unfold list_step at 1.
  - pose proof (element_run _ p o d ts r st (TRParen, s) rest "')' or ','" H W O D (or_intror eq_refl) Ah) as X. rewrite run_bind.
    destruct (run (recovered _ _ _ _) st) as [r' st1|st1|w|]; try contradiction; [|exact I]. destruct X as (-> & W1 & O1 & D1 & A1).
    assert (R2 : run (skip_token TComma) st1 = ROk None st1) by (unfold skip_token; rewrite run_bind, run_token; destruct A1 as [A1 _]; injection A1 as <- _; reflexivity). cbv zeta. rewrite run_bind, R2. cbn [run].
    split; [|exact A1]. destruct r; cbn [kept flat_map app]; now rewrite ?app_nil_r.
  - rewrite <- app_assoc in Ah. cbn [app] in Ah.
    pose proof (element_run _ p o d ts r st (TComma, s') (us ++ (TRParen, s) :: rest) "')' or ','" H W O D (or_introl eq_refl) Ah) as X. rewrite run_bind.
    destruct (run (recovered _ _ _ _) st) as [r' st1|st1|w|]; try contradiction; [|exact I]. destruct X as (-> & W1 & O1 & D1 & A1).
    assert (X : exists y ys, us ++ (TRParen, s) :: rest = y :: ys) by (destruct us; cbn; eauto). destruct X as (y & ys & X). rewrite X in A1.
    destruct (ahead_skip_token TComma s' y ys st1 eq_refl A1) as (st2 & R2 & A2 & M & _). cbv zeta. rewrite run_bind, R2. cbn [run].
    pose proof (C37_reachable _ (skip_token TComma) st1 W1) as W2. rewrite R2 in W2. rewrite <- X in A2. cbn [length] in L.
    assert (Y := IH st2 n (match r with Some a => acc ++ [a] | None => acc end) W2). rewrite (sm_opts _ _ M), (sm_delim _ _ M) in Y. specialize (Y O1 D1 A2 ltac:(lia)).
    destruct (run (loop _ _ _) st2) as [l st3|st3|w|]; try contradiction; [|exact I]. destruct Y as [-> Y]. split; [|exact Y].
    destruct r; cbn [kept flat_map app]; [now rewrite <- app_assoc|reflexivity].
Qed.
Theorem C37_list : forall A (p : prog A) o d ts rs st s rest n, elements p o d ts rs -> lwf (s_lex st) -> s_opts st = o -> s_delim st = d ->
  ahead st (ts ++ (TRParen, s) :: rest) -> length rs <= n ->
  match run (recovered_list n p) st with
  | ROk l st' => l = kept rs /\ ahead st' ((TRParen, s) :: rest)
  | RPanic _ => True
  | _ => False
  end.
Proof. intros A p o d ts rs st s rest n H. exact (list_run A p o d ts rs s rest H st n []). Qed.

(** For example, a list of names in which an element begins with a number. *)
Example C37_list_applies : forall s1 s2 s3, elements consume_plain_identifier default_options TSemiColon
  ([(TIdent (txt "a") NOT_A_KEYWORD, s1)] ++ (TComma, s2) :: [(TInteger (txt "1"), s1); (TLParen, s2); (TComma, s3); (TRParen, s3)])
  [Some (mkIdent (txt "a") s1); None].
Proof.
  intros s1 s2 s3. apply el_more; [|apply el_one].
  - intros st sep rest W O D _ Ah.
    assert (N : name_tok (unnumbered default_options) (TIdent (txt "a") NOT_A_KEYWORD) (txt "a")) by (left; exists NOT_A_KEYWORD; repeat split; discriminate).
    destruct (pa_name (unnumbered default_options) _ _ s1 sep rest N st) as (st1 & R & [A1 _] & M); [split; [exact Ah|apply numbered_none; now left]|exact O|]. rewrite R, (sm_delim _ _ M). auto.
  - intros st sep rest W O D _ Ah. pose proof Ah as [E _]. injection E as E _. unfold consume_plain_identifier. rewrite run_bind, run_token, <- E.
    unfold expected_failure, expected_error. rewrite run_bind, run_bind, run_span. unfold err_frags. rewrite run_perf. cbn [exec]. unfold p_issue.
    destruct (slice _ _ _); [|exact I]. cbn [build_frags run]. split; [reflexivity|]. split; [exact D|].
    exists [(TInteger (txt "1"), s1); (TLParen, s2); (TComma, s3); (TRParen, s3)]. split; [exact Ah|]. cbn [map fst app]. split.
    + intros a x b Ea. assert (Hp : passed rparen_or_comma [TInteger (txt "1"); TLParen; TComma; TRParen]).
      { apply pd_plain; [intros []; split; discriminate|reflexivity|]. apply (pd_group rparen_or_comma Paren [TComma] []); [reflexivity| |constructor]. apply ba_plain; [intros []; split; discriminate|constructor]. }
      split; [|split; [|exact (passed_not _ _ Hp _ _ _ Ea)]]; intros ->; apply (f_equal (fun l => existsb (fun t => tok_eqb t TEof || tok_eqb t TSemiColon) l)) in Ea;
        rewrite existsb_app in Ea; cbn in Ea; rewrite ?orb_true_r in Ea; discriminate.
    + apply unclosed_iff. reflexivity.
Qed.
(** Erroneous arguments and columns are skipped with all their brackets, the others are there. *)
Example C37_applies :
  match parse_statement_api (txt "CREATE TABLE t (a INT, b FOO (x, (y, z)), c INT)") [] default_options with
  | Returns (Some (SCreateTable s)) out => map (fun d => snd d) (idents_in s) = [(13, 14); (16, 17); (42, 43)] /\ map i_span (errors out) = [(25, 28)] | _ => False end /\
  unclosed [TLParen; TLBracket; TRParen; TRParen] [] /\ passed rparen_or_comma [TLParen; TComma; TLBracket; TRBracket; TRParen].
Proof.
  split; [|split].
  - vm_compute. auto.
  - apply unclosed_iff. reflexivity.
  - apply (pd_group rparen_or_comma Paren [TComma; TLBracket; TRBracket] []); [reflexivity| |constructor].
    apply ba_plain; [intros []; split; discriminate|]. apply (ba_group Square [] []); constructor.
Qed.
