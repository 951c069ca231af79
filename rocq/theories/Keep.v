(** C53, C54, C55, the method: in a run without Errors every placeholder (or literal) that is read stands in the value returned. *)
From Verif Require Export KeepW Accept.
Local Open Scope string_scope.
Local Open Scope list_scope.

(** Those that are numbered by counting. *)
Definition counted (t : tok) : bool := match t with TQuestionMark | TPercentS => true | _ => false end.
Definition counting (xs : tks) : N := N.of_nat (length (filter (fun x => counted (fst x)) xs)).
Lemma counting_app xs ys : counting (xs ++ ys) = (counting xs + counting ys)%N.
Proof. unfold counting. rewrite filter_app, app_length. lia. Qed.
(** The words ahead are not STDIN or EXCEPTION; and not FUNCTION, or there is no [$$], or ([None]) the dialect is not PostgreSQL's. *)
Definition tame (l : kind) (f : option bool) (t : tok) : bool :=
  negb (match l with KArgs => false | KLits _ => is_kw t "INTERVAL" || is_kw t "NUMERIC" || is_kw t "BIT" | KNames => is_kw t "CONSTRAINT" end) && negb (is_kw t "STDIN") && negb (is_kw t "EXCEPTION") && match f with Some true => negb (is_kw t "FUNCTION") | Some false => negb (tok_eqb t TDoubleDollar) | None => true end.
Definition calm (l : kind) (f : option bool) (st : pst) : Prop := forall us, ahead st us -> Forall (fun x => tame l f (fst x) = true) us.
(** The kind of token of interest, its span, the number of the placeholder there (or, with [kfree], any), and weights that count it. *)
Class kenv := mkKenv { kw :> wenv; ko : options; kkind : kind; kfun : option bool; kscript : bool; kspan : span; knum : N; kval : text; kfree : bool;
  k_fun : kfun = None -> is_postgresql (o_dialect ko) = false;
  k_wt : kkind = KArgs -> forall n, n = knum \/ kfree = true -> 1 <= kwt (AArg n kspan);
  k_light : (forall c, kkind <> KLits c) -> forall l s, literal_leaf l = true -> kwt (ALeaf l s) = 0;
  k_int : kkind = KLits LkInt -> 1 <= kwt (ALeaf (LInt knum) kspan);
  k_float : kkind = KLits LkFloat -> 1 <= kwt (ALeaf (LFloat kval) kspan);
  k_other : kkind <> KNames -> forall v s, kwt (AIdent v s) = 0;
  k_pg : kkind = KNames -> is_postgresql (o_dialect ko) = false;
  k_name : kkind = KNames -> 1 <= kwt (AIdent kval kspan) /\ 1 <= kwt (ALeaf (LFunc (FOther kval)) kspan) /\ 1 <= kwt (ALeaf (LVar (VOther kval)) kspan);
  k_str : kkind = KLits LkStr -> forall v s, fst s <= fst kspan -> snd kspan <= snd s -> 1 <= kwt (ALeaf (LStr v) s) }.

Section Logic.
Context {E : kenv}.
(** The tokens of that kind: names are words that are no keywords, and quoted names. *)
Definition mark (t : tok) : bool :=
  match t with
  | TQuestionMark | TPercentS | TDollarArg _ => match kkind with KArgs => true | _ => false end
  | TInteger _ => match kkind with KLits LkInt => true | _ => false end
  | TFloat _ => match kkind with KLits LkFloat => true | _ => false end
  | TSingleQuotedString _ => match kkind with KLits LkStr => true | _ => false end
  | TDoubleQuotedString _ => match kkind with KLits LkStr => negb (is_postgresql (o_dialect ko)) | _ => false end
  | TIdent _ k => match kkind with KNames => match k with KW _ => false | _ => true end | _ => false end
  | _ => false end.
(** Placeholders are not counted. *)
Definition silenced : bool := o_list_hack ko || match kkind with KArgs => false | _ => true end.
(** [xs] has been read between [st] and [st']. *)
Definition moves (st : pst) (xs : tks) (st' : pst) : Prop :=
  (forall us, us <> [] -> ahead st' us -> ahead st (xs ++ us)) /\ s_opts st' = s_opts st /\ (mark (s_delim st) = false -> mark (s_delim st') = false).
Lemma eats_moves st xs st' : eats st xs st' -> moves st xs st'.
Proof. intros (E0 & E1 & E2). split; [intros us N; now apply E0|]. split; [exact E1|congruence]. Qed.
Lemma moves_nil st : moves st [] st.
Proof. apply eats_moves, eats_nil. Qed.
Lemma moves_app a xs b ys c : moves a xs b -> moves b ys c -> moves a (xs ++ ys) c.
Proof.
  intros (H1 & O1 & D1) (H2 & O2 & D2). split; [|split; [congruence|auto]]. intros us N A. rewrite <- app_assoc. apply H1; [destruct ys, us; discriminate || congruence|]. now apply H2.
Qed.
Lemma eats_calm l f st xs st' : moves st xs st' -> calm l f st -> calm l f st'.
Proof.
  intros [H _] C us A. destruct us as [|x us]; [constructor|]. specialize (H (x :: us)). assert (X : ahead st (xs ++ x :: us)) by (apply H; [discriminate|exact A]).
  apply C in X. now apply Forall_app in X as [_ X].
Qed.
Lemma calm_tok l f st : calm l f st -> tame l f (s_tok st) = true.
Proof. intros H. specialize (H [(s_tok st, s_span st)]). assert (A : ahead st [(s_tok st, s_span st)]) by (cbn; destruct (s_peek st); auto). apply H in A. now inversion A. Qed.

(** How often a placeholder at the span of interest is among the tokens. *)
Definition span_eqb (a b : span) : bool := Nat.eqb (fst a) (fst b) && Nat.eqb (snd a) (snd b).
Definition seen (x : tok * span) : bool := mark (fst x) && span_eqb (snd x) kspan.
Definition pc (xs : tks) : nat := length (filter seen xs).
Lemma pc_app xs ys : pc (xs ++ ys) = pc xs + pc ys.
Proof. unfold pc. now rewrite filter_app, app_length. Qed.
Definition keats (st : pst) (xs : tks) (st' : pst) : Prop :=
  moves st xs st' /\ (silenced = false -> s_arg st' = s_arg st + counting xs)%N.
Lemma keats_nil st : keats st [] st.
Proof. split; [apply moves_nil|]. intros _. cbn. lia. Qed.
Lemma keats_app a xs b ys c : keats a xs b -> keats b ys c -> keats a (xs ++ ys) c.
Proof. intros [H1 N1] [H2 N2]. split; [eapply moves_app; eauto|]. intros L. rewrite N2, N1, counting_app by exact L. lia. Qed.
(** A placeholder ahead at the span of interest has the number of interest. *)
Definition place (st : pst) : Prop := forall xs t ys, ahead st (xs ++ (t, kspan) :: ys) -> mark t = true ->
  match t with TDollarArg n => (n - 1)%N = knum | TInteger v => digits_value v = knum | TFloat v | TIdent v _ => v = kval | TSingleQuotedString _ | TDoubleQuotedString _ => True | _ => kfree = true \/ (silenced = false /\ (s_arg st + counting xs)%N = knum) end.
Lemma keats_place st xs st' : keats st xs st' -> place st -> place st'.
Proof.
  intros [E0 N0] P ys t zs A M. destruct E0 as [E0 _]. apply E0 in A; [|destruct ys; discriminate]. rewrite app_assoc in A. specialize (P _ _ _ A M). destruct t; auto.
  all: destruct P as [P|[P0 P]]; [now left|right]; split; [exact P0|]; rewrite (N0 P0); rewrite counting_app in P; lia.
Qed.
(** In scripts, no placeholder directly after the word DELIMITER. *)
Definition undelimited (st : pst) : Prop := forall xs x y ys, ahead st (xs ++ x :: y :: ys) -> is_kw (fst x) "DELIMITER" = true -> mark (fst y) = false.
Lemma moves_undelimited st xs st' : moves st xs st' -> undelimited st -> undelimited st'.
Proof. intros [E0 _] P ys x y zs A. apply E0 in A; [|destruct ys; discriminate]. rewrite app_assoc in A. eapply P; eauto. Qed.
(** The token of interest is at most once ahead. *)
Definition once (st : pst) : Prop := forall us, ahead st us -> pc us <= 1.
Lemma moves_once st xs st' : moves st xs st' -> once st -> once st'.
Proof.
  intros [E0 _] P us A. destruct us as [|u us]; [cbn; lia|]. apply E0 in A; [|discriminate]. apply P in A. rewrite pc_app in A. lia.
Qed.
Definition kgood (st : pst) : Prop := s_opts st = ko /\ calm kkind kfun st /\ mark (s_delim st) = false /\ place st /\ (kscript = true -> undelimited st) /\ once st.
Lemma keats_good st xs st' : keats st xs st' -> kgood st -> kgood st'.
Proof.
  intros K (G & C & D & P & U & O). pose proof (keats_place _ _ _ K P). destruct K as [E0 _]. pose proof E0 as (_ & E1 & E2).
  split; [congruence|]. split; [eapply eats_calm; eauto|]. split; [auto|]. split; [assumption|]. split; [intros Z; eapply moves_undelimited; eauto|eapply moves_once; eauto].
Qed.
(** Run at the token [t] without errors, [p] returns some [a] having read [n] placeholders of interest with [R a n]; and if it fails there is an error. *)
Definition rk {A} (t : tok) (p : prog A) (R : A -> nat -> Prop) : Prop :=
  forall st, kgood st -> s_tok st = t ->
  match run p st with
  | ROk a st' => ne st' = ne st -> exists xs, keats st xs st' /\ R a (pc xs)
  | RErr st' => ne st < ne st'
  | _ => True
  end.
Lemma rk_conseq A t (p : prog A) (R R' : A -> nat -> Prop) : rk t p R -> (forall a n, R a n -> R' a n) -> rk t p R'.
Proof. intros H I st G T. specialize (H st G T). destruct (run p st); auto. intros E0. destruct (H E0) as (xs & X & Y). eauto. Qed.
Lemma rk_ret A t (a : A) (R : A -> nat -> Prop) : R a 0 -> rk t (Ret a) R.
Proof. intros H st G T. cbn. intros _. exists []. split; [apply keats_nil|exact H]. Qed.
Lemma rk_panic A t w R : rk (A:=A) t (Panic w) R.
Proof. intros st G T. exact I. Qed.
Lemma rk_fuel A t R : rk (A:=A) t OutOfFuel R.
Proof. intros st G T. exact I. Qed.
Lemma rk_bind A B t (p : prog A) (k : A -> prog B) R1 R : rk t p R1 ->
  (forall a n, R1 a n -> forall t1, rk t1 (k a) (fun b n2 => R b (n + n2))) -> rk t (bind p k) R.
Proof.
  intros H1 H2 st G T. rewrite run_bind. specialize (H1 st G T). destruct (run p st) as [a st1|st1|w|] eqn:E1; auto.
  pose proof (grown_ok _ _ _ _ _ E1) as L1. destruct (Nat.eq_dec (ne st1) (ne st)) as [Eq|Neq].
  - destruct (H1 Eq) as (xs & X & Y). specialize (H2 a _ Y _ st1 (keats_good _ _ _ X G) eq_refl).
    destruct (run (k a) st1) as [b st2|st2|w|]; auto; [|lia]. intros E0. destruct H2 as (ys & X2 & Y2); [lia|].
    exists (xs ++ ys). split; [eapply keats_app; eauto|]. now rewrite pc_app.
  - destruct (run (k a) st1) as [b st2|st2|w|] eqn:E2; auto.
    + pose proof (grown_ok _ _ _ _ _ E2). lia.
    + pose proof (grown_err _ _ _ _ E2). lia.
Qed.
Lemma rk_try A B t (p : prog A) (k : option A -> prog B) R1 R : rk t p R1 ->
  (forall a n, R1 a n -> forall t1, rk t1 (k (Some a)) (fun b n2 => R b (n + n2))) -> rk t (Try p k) R.
Proof.
  intros H1 H2 st G T. pose proof (rk_bind _ _ t p (fun a => k (Some a)) R1 R H1 H2 st G T) as H. specialize (H1 st G T). rewrite run_bind in H. cbn [run].
  destruct (run p st) as [a st1|st1|w|] eqn:E1; auto. destruct (run (k None) st1) as [b st2|st2|w|] eqn:E2; auto.
  - pose proof (grown_ok _ _ _ _ _ E2). lia.
  - pose proof (grown_err _ _ _ _ E2). lia.
Qed.
Lemma rk_assoc A B C t (p : prog A) (f : A -> prog B) (g : B -> prog C) R :
  rk t (bind p (fun x => bind (f x) g)) R -> rk t (bind (bind p f) g) R.
Proof.
  intros H st G T. specialize (H st G T). rewrite run_bind in H. rewrite run_bind, run_bind. destruct (run p st); auto. rewrite run_bind in H. exact H.
Qed.
(** Primitives that do not move. *)
Definition silent {X} (c : op X) : bool := match c with OArg => false | _ => quiet c end.
Lemma silent_keats X (c : op X) st x st' : silent c = true -> exec c st = XOk x st' -> keats st [] st' /\ s_tok st' = s_tok st.
Proof.
  intros Q E0. assert (Q' : quiet c = true) by (destruct c; auto; discriminate). pose proof (quiet_keeps _ _ _ _ _ Q' E0) as K.
  split; [split; [now apply eats_moves, keeps_eats|]|apply K]. intros _. cbn. rewrite N.add_0_r. clear K Q'.
  assert (PI : forall l m s fr st st', p_issue l m s fr st = XOk tt st' -> s_arg st' = s_arg st).
  { intros l m s fr a b. unfold p_issue. destruct (slice _ _ _); [|discriminate]. destruct (build_frags _ _); [|discriminate]. now injection 1 as <-. }
  destruct c; cbn [silent quiet exec] in *; try discriminate Q; try (injection E0 as _ <-; reflexivity).
  - destruct x. eauto.
  - destruct (o_warn_unquoted _); [destruct x; eauto|now injection E0 as _ <-].
  - destruct (_ && _); [destruct x; eauto|now injection E0 as _ <-].
Qed.
Lemma rk_silent X B t (c : op X) (k : X -> prog B) R : silent c = true ->
  (forall x st st', kgood st -> exec c st = XOk x st' -> rk t (k x) R) -> rk t (bind (perf c) k) R.
Proof.
  intros Q H st G T. rewrite run_bind, run_perf. destruct (exec c st) as [x st1|w|] eqn:E0; auto.
  destruct (silent_keats _ _ _ _ _ Q E0) as [K KT]. specialize (H x st st1 G E0 st1 (keats_good _ _ _ K G)). rewrite KT in H. specialize (H T).
  pose proof (ne_grown _ _ (exec_grown _ _ _ _ _ E0)) as L. destruct (run (k x) st1) as [b st2|st2|w|] eqn:E2; auto; [|lia].
  intros Eq. pose proof (grown_ok _ _ _ _ _ E2). destruct H as (xs & X1 & Y); [lia|]. exists xs. split; [|exact Y].
  apply (keats_app _ [] _ xs _ K X1).
Qed.
Lemma rk_token B t (k : tok -> prog B) R : (tame kkind kfun t = true -> rk t (k t) R) -> rk t (bind token k) R.
Proof. intros H st G T. assert (X : tame kkind kfun t = true) by (rewrite <- T; apply calm_tok, G). specialize (H X st G T). rewrite run_bind, run_token, T. exact H. Qed.
Lemma rk_peek B t (k : tok -> prog B) R : (forall x, rk t (k x) R) -> rk t (bind peek k) R.
Proof.
  intros H st G T. rewrite run_bind. unfold peek. rewrite run_perf. cbn [exec]. destruct (p_peek st) as [x st1|w|] eqn:E0; auto.
  pose proof (peek_eats _ _ _ E0) as K0. assert (T1 : s_tok st1 = t /\ s_issues st1 = s_issues st /\ s_arg st1 = s_arg st).
  { unfold p_peek in E0. destruct (s_peek st) as [[]|]; [injection E0 as _ <-; auto|]. destruct (next_token _) as [[]|]; [|discriminate]. injection E0 as _ <-. auto. }
  destruct T1 as (T1 & T2 & T3). assert (K : keats st [] st1) by (split; [exact (eats_moves _ _ _ K0)|intros _; cbn; lia]).
  specialize (H x st1 (keats_good _ _ _ K G) T1). assert (En : ne st1 = ne st) by (unfold ne; now rewrite T2). rewrite En in H.
  destruct (run (k x) st1) as [b st2|st2|w|]; auto. intros Eq. destruct (H Eq) as (xs & X1 & Y). exists xs. split; [|exact Y]. apply (keats_app _ [] _ xs _ K X1).
Qed.
Lemma next_facts st st1 : p_next st = XOk tt st1 -> ne st1 = ne st /\ s_arg st1 = s_arg st.
Proof.
  intros E0. unfold p_next in E0. destruct (s_peek st) as [[]|]; [injection E0 as <-; auto|]. destruct (next_token _) as [[]|]; [|discriminate]. injection E0 as <-. auto.
Qed.
Lemma mark_kw v k : mark (TIdent v (KW k)) = false.
Proof. unfold mark. now destruct kkind. Qed.
Lemma mark_counted t : silenced = false -> mark t = false -> counted t = false.
Proof. unfold silenced, mark. destruct kkind; [|now rewrite orb_true_r..]. now destruct t. Qed.
Lemma rk_next B t (k : unit -> prog B) R : mark t = false -> (forall t1, rk t1 (k tt) R) -> rk t (bind next k) R.
Proof.
  intros M H st G T. rewrite run_bind. unfold next. rewrite run_perf. cbn [exec]. destruct (p_next st) as [[] st1|w|] eqn:E0; auto.
  pose proof (next_eats _ _ E0) as K0. destruct (next_facts _ _ E0) as [En Ea].
  assert (K : keats st [(s_tok st, s_span st)] st1).
  { split; [exact (eats_moves _ _ _ K0)|]. intros Sl. unfold counting. cbn [filter fst]. rewrite T, (mark_counted _ Sl M). cbn. lia. }
  specialize (H _ st1 (keats_good _ _ _ K G) eq_refl). rewrite En in H. destruct (run (k tt) st1) as [b st2|st2|w|]; auto.
  intros Eq. destruct (H Eq) as (xs & X1 & Y). eexists. split; [eapply keats_app; eauto|].
  rewrite pc_app. unfold pc at 1. cbn [filter]. unfold seen at 1. cbn [fst snd]. now rewrite T, M.
Qed.
Lemma rk_span B t (k : span -> prog B) R : (forall s, rk t (k s) R) -> rk t (bind cur_span k) R.
Proof. intros H. apply rk_silent; [reflexivity|]. auto. Qed.
Lemma rk_consume B t (k : span -> prog B) R : mark t = false -> (forall s t1, rk t1 (k s) R) -> rk t (bind consume k) R.
Proof. intros M H. unfold consume. apply rk_assoc, rk_span. intros s. apply rk_assoc, rk_next; [exact M|]. apply H. Qed.
Lemma span_eqb_eq a b : span_eqb a b = true <-> a = b.
Proof. unfold span_eqb. destruct a, b. cbn. rewrite andb_true_iff, !Nat.eqb_eq. split; [intros [-> ->]; auto|now injection 1]. Qed.
(** A placeholder that is counted, and [$n]. *)
Lemma rk_arg B t u (k : N -> span -> prog B) (R : B -> nat -> Prop) : kkind = KArgs -> counted u = true -> tok_eqb t u = true ->
  (forall n s t1, (s = kspan -> n = knum \/ kfree = true -> rk t1 (k n s) (fun b n2 => R b (1 + n2))) /\ (s <> kspan -> rk t1 (k n s) R)) ->
  rk t (n <- perf OArg ;; s <- consume_token u ;; k n s) R.
Proof.
  intros Ka M Et H st G T. rewrite run_bind, run_perf. destruct (exec OArg st) as [n0 st0|w|] eqn:St0; auto. cbn [exec] in St0. injection St0 as <- St0.
  assert (F0 : s_tok st0 = t /\ s_span st0 = s_span st /\ ne st0 = ne st /\ s_arg st0 = (s_arg st + 1)%N) by (subst st0; cbn; auto).
  destruct F0 as (T0 & S0 & N0 & A0). assert (Q0 : eats st [] st0) by (subst st0; split; [intros [|x us] N; [congruence|]; reflexivity|split; reflexivity]).
  assert (E1 : run (s <- consume_token u ;; k (s_arg st) s) st0 = match p_next st0 with XOk _ st1 => run (k (s_arg st) (s_span st)) st1 | XPanic w => RPanic w | XFuel => RFuel end).
  { rewrite run_bind. unfold consume_token. rewrite run_bind, run_token, T0, Et, run_consume, S0. now destruct (p_next st0). }
  rewrite E1. clear E1. destruct (p_next st0) as [[] st1|w|] eqn:E0; auto.
  pose proof (next_eats _ _ E0) as K0. destruct (next_facts _ _ E0) as [En Ea]. rewrite T0, S0 in K0.
  apply tok_eqb_eq in Et. subst u.
  assert (K : keats st [(t, s_span st)] st1).
  { split; [exact (eats_moves _ _ _ (eats_app _ [] _ _ _ Q0 K0))|]. intros _. unfold counting. cbn [filter fst]. rewrite M. cbn. lia. }
  assert (Mk : mark t = true) by (unfold mark; rewrite Ka; destruct t; auto; discriminate). destruct (H (s_arg st) (s_span st) (s_tok st1)) as [H1 H2].
  destruct (span_eqb (s_span st) kspan) eqn:Es.
  - assert (Hn : s_arg st = knum \/ kfree = true).
    { apply span_eqb_eq in Es. destruct G as (_ & _ & _ & P & _). specialize (P [] t []). rewrite <- Es in P. assert (A : ahead st [(t, s_span st)]) by (cbn; rewrite T; destruct (s_peek st); auto).
      specialize (P A Mk). destruct t; try discriminate M; (destruct P as [P|[_ P]]; [now right|left; cbn in P; lia]). }
    specialize (H1 (proj1 (span_eqb_eq _ _) Es) Hn st1 (keats_good _ _ _ K G) eq_refl). rewrite En, N0 in H1. destruct (run _ st1) as [b st2|st2|w|]; auto.
    intros Eq. destruct (H1 Eq) as (xs & X1 & Y). eexists. split; [eapply keats_app; eauto|].
    rewrite pc_app. unfold pc at 1. cbn [filter]. unfold seen at 1. cbn [fst snd]. now rewrite Mk, Es.
  - assert (Nq : s_span st <> kspan) by (intros Z; apply span_eqb_eq in Z; congruence).
    specialize (H2 Nq st1 (keats_good _ _ _ K G) eq_refl). rewrite En, N0 in H2. destruct (run _ st1) as [b st2|st2|w|]; auto.
    intros Eq. destruct (H2 Eq) as (xs & X1 & Y). eexists. split; [eapply keats_app; eauto|].
    rewrite pc_app. unfold pc at 1. cbn [filter]. unfold seen at 1. cbn [fst snd]. now rewrite Mk, Es.
Qed.
(** What is known of the token of interest. *)
Definition placed (t : tok) : Prop := match t with TDollarArg n => (n - 1)%N = knum | TInteger v => digits_value v = knum | TFloat v | TIdent v _ => v = kval | _ => True end.
Lemma rk_marked B t (k : span -> prog B) (R : B -> nat -> Prop) : mark t = true -> counted t = false ->
  (forall s t1, (s = kspan -> placed t -> rk t1 (k s) (fun b n2 => R b (1 + n2))) /\ (s <> kspan -> rk t1 (k s) R)) ->
  rk t (s <- consume ;; k s) R.
Proof.
  intros M Ct H st G T. assert (E1 : run (s <- consume ;; k s) st = match p_next st with XOk _ st1 => run (k (s_span st)) st1 | XPanic w => RPanic w | XFuel => RFuel end).
  { rewrite run_bind, run_consume. now destruct (p_next st). }
  rewrite E1. clear E1. destruct (p_next st) as [[] st1|w|] eqn:E0; auto.
  pose proof (next_eats _ _ E0) as K0. destruct (next_facts _ _ E0) as [En Ea]. rewrite T in K0.
  assert (K : keats st [(t, s_span st)] st1).
  { split; [exact (eats_moves _ _ _ K0)|]. intros _. unfold counting. cbn [filter fst]. rewrite Ct. cbn. lia. }
  destruct (H (s_span st) (s_tok st1)) as [H1 H2]. destruct (span_eqb (s_span st) kspan) eqn:Es.
  - assert (Hn : placed t).
    { apply span_eqb_eq in Es. destruct G as (_ & _ & _ & P & _). specialize (P [] t []). rewrite <- Es in P. assert (A : ahead st [(t, s_span st)]) by (cbn; rewrite T; destruct (s_peek st); auto).
      specialize (P A M). unfold placed. destruct t; auto. }
    specialize (H1 (proj1 (span_eqb_eq _ _) Es) Hn st1 (keats_good _ _ _ K G) eq_refl). rewrite En in H1. destruct (run _ st1) as [b st2|st2|w|]; auto.
    intros Eq. destruct (H1 Eq) as (xs & X1 & Y). eexists. split; [eapply keats_app; eauto|].
    rewrite pc_app. unfold pc at 1. cbn [filter]. unfold seen at 1. cbn [fst snd]. now rewrite M, Es.
  - assert (Nq : s_span st <> kspan) by (intros Z; apply span_eqb_eq in Z; congruence).
    specialize (H2 Nq st1 (keats_good _ _ _ K G) eq_refl). rewrite En in H2. destruct (run _ st1) as [b st2|st2|w|]; auto.
    intros Eq. destruct (H2 Eq) as (xs & X1 & Y). eexists. split; [eapply keats_app; eauto|].
    rewrite pc_app. unfold pc at 1. cbn [filter]. unfold seen at 1. cbn [fst snd]. now rewrite M, Es.
Qed.
(** It is read at most once. *)
Lemma rk_once A t (p : prog A) (f : A -> nat) : rk t p (fun a n => 0 < n -> 1 <= f a) -> rk t p (fun a n => n <= f a).
Proof.
  intros H st G T. specialize (H st G T). destruct (run p st) as [a st'|st'|w|]; auto. intros Eq. destruct (H Eq) as (xs & X & Y). exists xs. split; [exact X|].
  assert (L : pc xs <= 1).
  { destruct G as (_ & _ & _ & _ & _ & O). destruct X as [[X _] _]. specialize (O (xs ++ [(s_tok st', s_span st')])). rewrite pc_app in O.
    enough (pc xs + pc [(s_tok st', s_span st')] <= 1) by lia. apply O, X; [discriminate|]. cbn. destruct (s_peek st'); auto. }
  destruct (pc xs) as [|[|]]; [lia|apply Y; lia|lia].
Qed.
(** The _LIST_ hack counts without a placeholder. *)
Lemma rk_hack B t p (k : N -> span -> prog B) (R : B -> nat -> Prop) : silenced = true -> (forall n, rk t (s <- p ;; k n s) R) -> rk t (n <- perf OArg ;; s <- p ;; k n s) R.
Proof.
  intros L H st G T. rewrite run_bind, run_perf. destruct (exec OArg st) as [n0 st0|w|] eqn:St0; auto. cbn [exec] in St0. injection St0 as <- St0.
  assert (Q0 : keats st [] st0) by (subst st0; split; [apply eats_moves; split; [intros [|x us] N; [congruence|]; reflexivity|split; reflexivity]|congruence]).
  assert (T0 : s_tok st0 = t) by (subst st0; exact T). specialize (H (s_arg st) st0 (keats_good _ _ _ Q0 G) T0). assert (N0 : ne st0 = ne st) by (now subst st0). rewrite N0 in H.
  destruct (run _ st0) as [b st2|st2|w|]; auto. intros Eq. destruct (H Eq) as (xs & X1 & Y). exists xs. split; [|exact Y]. apply (keats_app _ [] _ xs _ Q0 X1).
Qed.
(** The delimiter is set. *)
Lemma rk_setdelim B t w (k : unit -> prog B) R : mark w = false -> rk t (k tt) R -> rk t (bind (perf (OSetDelim w)) k) R.
Proof.
  intros M H st G T. rewrite run_bind, run_perf. destruct (exec (OSetDelim w) st) as [[] st0|x|] eqn:St0; auto. cbn [exec] in St0. injection St0 as St0.
  assert (Q0 : keats st [] st0) by (subst st0; split; [split; [intros [|x us] N; [congruence|]; auto|split; [reflexivity|auto]]|intros _; cbn; lia]).
  assert (T0 : s_tok st0 = t) by (subst st0; exact T). specialize (H st0 (keats_good _ _ _ Q0 G) T0). assert (N0 : ne st0 = ne st) by (now subst st0). rewrite N0 in H.
  destruct (run _ st0) as [b st2|st2|x|]; auto. intros Eq. destruct (H Eq) as (xs & X1 & Y). exists xs. split; [|exact Y]. apply (keats_app _ [] _ xs _ Q0 X1).
Qed.
(** A placeholder does not follow DELIMITER. *)
Lemma rk_delimiter B t (k : option span -> prog B) R : kscript = true ->
  (forall s t1, mark t1 = false -> rk t1 (k (Some s)) R) -> rk t (k None) R -> rk t (bind (skip_keyword "DELIMITER") k) R.
Proof.
  intros Z H1 H2. unfold skip_keyword. apply rk_assoc, rk_token. intros _. destruct (is_kw t "DELIMITER") eqn:D; [|exact H2].
  intros st G T. assert (Ti : exists v, t = TIdent v (KW "DELIMITER")).
  { destruct t; try discriminate D. cbn in D. apply kw_eqb_eq in D. subst. eauto. }
  destruct Ti as [v ->]. rewrite run_bind, run_try. unfold consume_keyword. rewrite run_bind, run_token, T. cbv iota. rewrite (proj2 (kw_eqb_eq _ _) eq_refl).
  rewrite run_bind, run_span, run_bind, run_perf. destruct (exec (OLintCaps v (s_span st)) st) as [x st0|w|] eqn:E0; auto. destruct x.
  destruct (silent_keats _ (OLintCaps v (s_span st)) _ _ _ eq_refl E0) as [K0 T0]. pose proof (ne_grown _ _ (exec_grown _ _ _ _ _ E0)) as L0.
  unfold consume. rewrite run_bind, run_span, run_bind. unfold next. rewrite run_perf. cbn [exec]. destruct (p_next st0) as [[] st1|w|] eqn:E1; auto.
  pose proof (next_eats _ _ E1) as K1. destruct (next_facts _ _ E1) as [En Ea]. cbn [run].
  assert (K : keats st [(s_tok st0, s_span st0)] st1).
  { apply (keats_app _ [] _ _ _ K0). split; [exact (eats_moves _ _ _ K1)|]. intros _. unfold counting. cbn [filter fst]. rewrite T0, T. cbn. lia. }
  assert (Mk : mark (s_tok st1) = false).
  { destruct G as (_ & _ & _ & _ & U & _). specialize (U Z [] (s_tok st0, s_span st0) (s_tok st1, s_span st1) []). apply U.
    - apply (proj1 (proj1 K)); [discriminate|]. cbn. destruct (s_peek st1); auto.
    - cbn [fst]. now rewrite T0, T. }
  specialize (H1 (s_span st0) (s_tok st1) Mk st1 (keats_good _ _ _ K G) eq_refl). change (run (Ret (Some (s_span st0))) st1) with (ROk (Some (s_span st0)) st1). cbv iota.
  destruct (run (k (Some (s_span st0))) st1) as [b st2|st2|w|] eqn:E2; auto; [|lia].
  intros Eq. pose proof (grown_ok _ _ _ _ _ E2). destruct H1 as (xs & X1 & Y); [lia|]. eexists. split; [eapply keats_app; eauto|].
  rewrite pc_app. unfold pc at 1. cbn [filter]. unfold seen at 1. cbn [fst snd]. now rewrite T0, T, mark_kw.
Qed.
(** Errors *)
Lemma rk_error B t m s fr (k : unit -> prog B) R : rk t (bind (err_frags m s fr) k) R.
Proof.
  intros st G T. rewrite run_bind. unfold err_frags. rewrite run_perf. cbn [exec]. unfold p_issue. destruct (slice _ _ _); [|exact I]. destruct (build_frags _ _); [|exact I].
  assert (L : ne st < ne (set_issues st (s_issues st ++ [mkIssue Error m s t0 l]))) by (unfold ne, set_issues; cbn [s_issues]; rewrite filter_app, app_length; cbn; lia).
  set (st1 := set_issues _ _) in *. destruct (run (k tt) st1) as [b st2|st2|w|] eqn:E2; auto.
  - pose proof (grown_ok _ _ _ _ _ E2). lia.
  - pose proof (grown_err _ _ _ _ E2). lia.
Qed.
Lemma rk_err B t m s (k : unit -> prog B) R : rk t (bind (err m s) k) R.
Proof. apply rk_error. Qed.
Lemma rk_err_at B t m s (k : unit -> prog B) R : rk t (bind (err_at m s) k) R.
Proof. destruct s; cbn [err_at bind]; (apply rk_err || apply rk_panic). Qed.
Lemma rk_expected_error B t m (k : unit -> prog B) R : rk t (bind (expected_error m) k) R.
Proof. unfold expected_error. apply rk_assoc, rk_span. intros s. apply rk_error. Qed.
Lemma rk_expected_failure A B t m (k : A -> prog B) R : rk t (bind (expected_failure m) k) R.
Proof. unfold expected_failure. apply rk_assoc, rk_expected_error. Qed.
Lemma rk_expected_failure' A t m R : rk (A:=A) t (expected_failure m) R.
Proof. apply rk_expected_error. Qed.
Lemma rk_err_here A B t m (k : A -> prog B) R : rk t (bind (err_here m) k) R.
Proof. unfold err_here. apply rk_assoc, rk_span. intros s. apply rk_assoc, rk_err. Qed.
Lemma rk_err_here' A t m R : rk (A:=A) t (err_here m) R.
Proof. unfold err_here. apply rk_span. intros s. apply rk_err. Qed.

(** ** What is asked of the parsers *)
(** [c] placeholders of interest read before and those [p] reads are in the result, as [g] measures it. *)
Definition kp {A} (t : tok) (c : nat) (g : A -> nat -> Prop) (p : prog A) : Prop := rk t p (fun a n => g a (c + n)).
Definition uW {A} {I : Atoms A} (a : A) (n : nat) : Prop := n <= kW a.
Definition keeps_ {A} {I : Atoms A} (p : prog A) : Prop := forall t, kp t 0 uW p.
Lemma kp_conseq A t c (g g' : A -> nat -> Prop) p : kp t c g' p -> (forall a n, g' a n -> g a n) -> kp t c g p.
Proof. intros H L. eapply rk_conseq; [exact H|]. cbv beta. auto. Qed.
Lemma kp_ret A t c (g : A -> nat -> Prop) a : g a c -> kp t c g (Ret a).
Proof. intros H. apply rk_ret. now rewrite Nat.add_0_r. Qed.
Lemma kp_bind A B t c (g : B -> nat -> Prop) (g0 : A -> nat -> Prop) (p : prog A) (k : A -> prog B) : kp t 0 g0 p ->
  (forall a n, g0 a n -> forall t1, kp t1 (c + n) g (k a)) -> kp t c g (bind p k).
Proof. intros H1 H2. eapply rk_bind; [exact H1|]. cbn. intros a n L t1. eapply rk_conseq; [apply (H2 a n L)|]. cbv beta. intros ? ?; rewrite ?Nat.add_assoc; auto. Qed.
Lemma kp_step A (I : Atoms A) B t c (g : B -> nat -> Prop) (p : prog A) (k : A -> prog B) : keeps_ p ->
  (forall a n, n <= kW a -> forall t1, kp t1 (c + n) g (k a)) -> kp t c g (bind p k).
Proof. intros H1 H2. eapply kp_bind; [apply H1|exact H2]. Qed.
(** What follows gets the whole amount. *)
Lemma kp_flow A B t c (g : B -> nat -> Prop) (g0 : A -> nat -> Prop) (p : prog A) (k : A -> prog B) : kp t c g0 p ->
  (forall a n, g0 a n -> forall t1, kp t1 n g (k a)) -> kp t c g (bind p k).
Proof. intros H1 H2. eapply rk_bind; [exact H1|]. cbv beta. intros a n L t1. eapply rk_conseq; [apply (H2 a _ L)|]. cbv beta. intros ? ?; rewrite ?Nat.add_assoc; auto. Qed.
Lemma kp_tail A (I : Atoms A) t c (g : A -> nat -> Prop) (p : prog A) : keeps_ p -> (forall a n, n <= kW a -> g a (c + n)) -> kp t c g p.
Proof. intros H1 H2. eapply rk_conseq; [apply H1|]. cbn. auto. Qed.
Lemma kp_try A (I : Atoms A) B t c (g : B -> nat -> Prop) (p : prog A) (k : option A -> prog B) : keeps_ p ->
  (forall a n, n <= kW a -> forall t1, kp t1 (c + n) g (k (Some a))) -> kp t c g (Try p k).
Proof. intros H1 H2. eapply rk_try; [apply H1|]. cbn. intros a n L t1. eapply rk_conseq; [apply (H2 a n L)|]. cbv beta. intros ? ?; rewrite ?Nat.add_assoc; auto. Qed.
Lemma kp_assoc A B C t c (g : C -> nat -> Prop) (p : prog A) (f : A -> prog B) (h : B -> prog C) :
  kp t c g (bind p (fun x => bind (f x) h)) -> kp t c g (bind (bind p f) h).
Proof. apply rk_assoc. Qed.
Lemma kp_token B t c (g : B -> nat -> Prop) (k : tok -> prog B) : (tame kkind kfun t = true -> kp t c g (k t)) -> kp t c g (bind token k).
Proof. apply rk_token. Qed.
Lemma kp_token' t c (g : tok -> nat -> Prop) : g t c -> kp t c g token.
Proof. intros H. change token with (bind token Ret). apply kp_token. intros _. now apply kp_ret. Qed.
Lemma kp_peek B t c (g : B -> nat -> Prop) (k : tok -> prog B) : (forall x, kp t c g (k x)) -> kp t c g (bind peek k).
Proof. apply rk_peek. Qed.
Lemma kp_span B t c (g : B -> nat -> Prop) (k : span -> prog B) : (forall s, kp t c g (k s)) -> kp t c g (bind cur_span k).
Proof. apply rk_span. Qed.
Lemma kp_dialect B t c (g : B -> nat -> Prop) (k : dialect -> prog B) : kp t c g (k (o_dialect ko)) -> kp t c g (bind dialect_ k).
Proof. intros H. apply rk_silent; [reflexivity|]. intros x st st' G X. cbn [exec] in X. injection X as <- <-. destruct G as [-> _]. exact H. Qed.
Lemma kp_arguments B t c (g : B -> nat -> Prop) (k : arguments -> prog B) : kp t c g (k (o_arguments ko)) -> kp t c g (bind (perf OArguments) k).
Proof. intros H. apply rk_silent; [reflexivity|]. intros x st st' G X. cbn [exec] in X. injection X as <- <-. destruct G as [-> _]. exact H. Qed.
Lemma kp_listhack B t c (g : B -> nat -> Prop) (k : bool -> prog B) : kp t c g (k (o_list_hack ko)) -> kp t c g (bind (perf OListHack) k).
Proof. intros H. apply rk_silent; [reflexivity|]. intros x st st' G X. cbn [exec] in X. injection X as <- <-. destruct G as [-> _]. exact H. Qed.
Lemma kp_delim B t c (g : B -> nat -> Prop) (k : tok -> prog B) : (forall d, mark d = false -> kp t c g (k d)) -> kp t c g (bind (perf ODelim) k).
Proof. intros H. apply rk_silent; [reflexivity|]. intros x st st' G X. cbn [exec] in X. injection X as <- <-. apply H, G. Qed.
Lemma kp_silent X B t c (g : B -> nat -> Prop) (q : op X) (k : X -> prog B) : silent q = true -> (forall x, kp t c g (k x)) -> kp t c g (bind (perf q) k).
Proof. intros Q H. apply rk_silent; [exact Q|]. intros. apply H. Qed.
Lemma kp_silent' X t c (g : X -> nat -> Prop) (q : op X) : silent q = true -> (forall x, g x c) -> kp t c g (perf q).
Proof. intros Q H. change (perf q) with (bind (perf q) Ret). apply kp_silent; [exact Q|]. intros x. now apply kp_ret. Qed.
Lemma kp_warn B t c (g : B -> nat -> Prop) m s (k : unit -> prog B) : kp t c g (k tt) -> kp t c g (bind (warn m s) k).
Proof. intros H. unfold warn. apply kp_silent; [reflexivity|]. intros []. exact H. Qed.
Lemma kp_next B t c (g : B -> nat -> Prop) (k : unit -> prog B) : mark t = false -> (forall t1, kp t1 c g (k tt)) -> kp t c g (bind next k).
Proof. apply rk_next. Qed.
Lemma kp_consume B t c (g : B -> nat -> Prop) (k : span -> prog B) : mark t = false -> (forall s t1, kp t1 c g (k s)) -> kp t c g (bind consume k).
Proof. apply rk_consume. Qed.
Lemma kp_consume' t c (g : span -> nat -> Prop) : mark t = false -> (forall s, g s c) -> kp t c g consume.
Proof. intros M H. change consume with (bind consume Ret). apply kp_consume; [exact M|]. intros. now apply kp_ret. Qed.
Lemma kp_setdelim B t c (g : B -> nat -> Prop) w (k : unit -> prog B) : mark w = false -> kp t c g (k tt) -> kp t c g (bind (perf (OSetDelim w)) k).
Proof. apply rk_setdelim. Qed.
Lemma kp_delimiter B t c (g : B -> nat -> Prop) (k : option span -> prog B) : kscript = true ->
  (forall s t1, mark t1 = false -> kp t1 c g (k (Some s))) -> kp t c g (k None) -> kp t c g (bind (skip_keyword "DELIMITER") k).
Proof. apply rk_delimiter. Qed.
Lemma kp_err B t c (g : B -> nat -> Prop) m s (k : unit -> prog B) : kp t c g (bind (err m s) k).
Proof. apply rk_err. Qed.
Lemma kp_err_frags B t c (g : B -> nat -> Prop) m s fr (k : unit -> prog B) : kp t c g (bind (err_frags m s fr) k).
Proof. apply rk_error. Qed.
Lemma kp_err_at B t c (g : B -> nat -> Prop) m s (k : unit -> prog B) : kp t c g (bind (err_at m s) k).
Proof. apply rk_err_at. Qed.
Lemma kp_expected_error B t c (g : B -> nat -> Prop) m (k : unit -> prog B) : kp t c g (bind (expected_error m) k).
Proof. apply rk_expected_error. Qed.
Lemma kp_expected_failure A B t c (g : B -> nat -> Prop) m (k : A -> prog B) : kp t c g (bind (expected_failure m) k).
Proof. apply rk_expected_failure. Qed.
Lemma kp_expected_failure' A t c (g : A -> nat -> Prop) m : kp t c g (expected_failure m).
Proof. apply rk_expected_failure'. Qed.
Lemma kp_err_here A B t c (g : B -> nat -> Prop) m (k : A -> prog B) : kp t c g (bind (err_here m) k).
Proof. apply rk_err_here. Qed.
Lemma kp_err_here' A t c (g : A -> nat -> Prop) m : kp t c g (err_here m).
Proof. apply rk_err_here'. Qed.
Lemma kp_panic A t c (g : A -> nat -> Prop) w : kp t c g (Panic w).
Proof. apply rk_panic. Qed.
Lemma kp_fuel A t c (g : A -> nat -> Prop) : kp t c g OutOfFuel.
Proof. apply rk_fuel. Qed.
Lemma kp_recovered_end B t c (g : B -> nat -> Prop) x e (k : unit -> prog B) : kp t c g (k tt) -> kp t c g (bind (recovered_end x e) k).
Proof. intros H. unfold recovered_end. apply kp_assoc, kp_token. intros _. destruct (e t); [exact H|apply kp_assoc, kp_expected_error]. Qed.
Lemma kp_recovered A t c (g : A -> nat -> Prop) d x e p : kp t c g p -> kp t c g (recovered d x e p).
Proof.
  intros H. unfold recovered. change (kp t c g (Try p (fun r => bind match r with Some v => Ret v | None => recover e ;;; Ret d end (fun a => recovered_end x e ;;; Ret a)))).
  eapply rk_try; [exact H|]. cbv beta iota. intros a n L t1.
  change (rk t1 (recovered_end x e ;;; Ret a) (fun b n2 => g b (c + (n + n2)))). eapply rk_conseq; [eapply (kp_recovered_end _ t1 (c + n) g)|cbv beta; intros; now rewrite Nat.add_assoc].
  now apply kp_ret.
Qed.
(** Parsers that push into a captured vector: in runs without errors they end in [Ok]. *)
Definition gfine {A} (g : A -> nat -> Prop) (x : A * bool) (n : nat) : Prop := snd x = true /\ g (fst x) n.
Definition gctl {A} (g : A -> nat -> Prop) (x : A * ctl) (n : nat) : Prop := match snd x with Abort => False | _ => g (fst x) n end.
Lemma kp_recovered_acc A t c (g : A -> nat -> Prop) x e (p : prog (A * bool)) : kp t c (gfine g) p -> kp t c g (recovered_acc x e p).
Proof.
  intros H. unfold recovered_acc. eapply rk_bind; [exact H|]. intros [a ok] n [L1 L2] t1. cbn [fst snd] in *. subst ok.
  change (rk t1 (recovered_end x e ;;; Ret a) (fun b n2 => g b (c + (n + n2)))). eapply rk_conseq; [eapply (kp_recovered_end _ t1 (c + n) g)|cbv beta; intros; now rewrite Nat.add_assoc].
  now apply kp_ret.
Qed.
Lemma kp_loop X A (gx : X -> nat -> Prop) (g : A -> nat -> Prop) (body : X -> prog (X + A)) :
  (forall x t c, gx x c -> kp t c (fun r n => match r with inl y => gx y n | inr a => g a n end) (body x)) ->
  forall n x t c, gx x c -> kp t c g (loop n body x).
Proof.
  intros B. induction n as [|n IH]; intros x t c L; [apply kp_fuel|]. cbn [loop]. eapply kp_flow; [apply B; exact L|].
  intros [y|a] m L1 t1; cbv beta iota in *; [now apply IH|now apply kp_ret].
Qed.
Lemma kp_loop_acc X (g : X -> nat -> Prop) (body : X -> prog (X * ctl)) :
  (forall x t c, g x c -> kp t c (gctl g) (body x)) -> forall n x t c, g x c -> kp t c (gfine g) (loop_acc n body x).
Proof.
  intros B. induction n as [|n IH]; intros x t c L; [apply kp_fuel|]. cbn [loop_acc]. eapply rk_try; [apply B; exact L|]. cbv beta.
  intros [y k] m L1 t1; unfold gctl in L1; cbn [fst snd] in L1; destruct k; cbv iota; [| |contradiction].
  - eapply rk_conseq; [apply (IH y t1 (c + m)); exact L1|]. cbv beta. intros. now rewrite Nat.add_assoc.
  - apply rk_ret. split; [reflexivity|]. cbn [fst snd]. now rewrite Nat.add_0_r.
Qed.
(** Lists and pairs as [kW] measures them. *)
Lemma keeps_loop X A (IX : Atoms X) (IA : Atoms A) n (body : X -> prog (X + A)) x t c :
  (forall x t c, c <= kW x -> kp t c uW (body x)) -> c <= kW x -> kp t c uW (loop n body x).
Proof.
  intros B L. apply kp_loop with (gx := uW); [|exact L]. intros y t1 c1 H. eapply kp_conseq; [apply B, H|]. intros [a|a] m; unfold uW; rewrite ?kW_inl, ?kW_inr; auto.
Qed.
Lemma keeps_loop_nil X A (IX : Atoms X) (IA : Atoms A) n (body : list X -> prog (list X + A)) :
  (forall x t c, c <= kW x -> kp t c uW (body x)) -> keeps_ (loop n body []).
Proof. intros B t. eapply keeps_loop; [exact B|]. cbn. lia. Qed.
Lemma keeps_acc_nil T (I : Atoms T) n x e (body : list T -> prog (list T * ctl)) :
  (forall l t c, c <= kW l -> kp t c (gctl uW) (body l)) -> keeps_ (recovered_acc x e (loop_acc n body [])).
Proof. intros B t. apply kp_recovered_acc. eapply kp_loop_acc; [exact B|]. unfold uW. lia. Qed.
End Logic.
