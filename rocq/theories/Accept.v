(** C51, the method: error-free runs of a program read tokens that a right-hand side of the grammar derives. *)
From Verif Require Export View Generic Api Ebnf.
Local Open Scope string_scope.
Local Open Scope list_scope.

(** The number of errors so far. *)
Definition err_issue (i : issue) : bool := match i_level i with Error => true | Warning => false end.
Definition ne (st : pst) : nat := length (filter err_issue (s_issues st)).
Lemma ne_grown st st' : grown st st' -> ne st <= ne st'.
Proof. intros (_ & _ & _ & new & E & _). unfold ne. rewrite E, filter_app, app_length. lia. Qed.
(** Between [st] and [st'] the tokens [xs] have been read. *)
Definition eats (st : pst) (xs : tks) (st' : pst) : Prop :=
  (forall us, us <> [] -> ahead st' us <-> ahead st (xs ++ us)) /\ s_opts st' = s_opts st /\ s_delim st' = s_delim st.
Lemma eats_nil st : eats st [] st.
Proof. split; [intros us _; reflexivity|auto]. Qed.
Lemma eats_app a xs b ys c : eats a xs b -> eats b ys c -> eats a (xs ++ ys) c.
Proof.
  intros [H1 [O1 D1]] [H2 [O2 D2]]. split; [|split; congruence]. intros us N. rewrite <- app_assoc. rewrite (H2 us N). apply H1.
  destruct ys; [exact N|discriminate].
Qed.
(** No word STDIN ahead. *)
Definition clean (st : pst) : Prop := forall us, ahead st us -> Forall (fun x => is_kw (fst x) "STDIN" = false) us.
Lemma eats_clean st xs st' : eats st xs st' -> clean st -> clean st'.
Proof.
  intros [H _] C us A. destruct us as [|x us]; [constructor|]. specialize (H (x :: us)). assert (X : ahead st (xs ++ x :: us)) by (apply H; [discriminate|exact A]).
  apply C in X. now apply Forall_app in X as [_ X].
Qed.
Lemma next_eats st st' : p_next st = XOk tt st' -> eats st [(s_tok st, s_span st)] st'.
Proof.
  unfold p_next. destruct (s_peek st) as [[t s]|] eqn:P.
  - injection 1 as <-. split; [|now split]. intros [|x us] N; [congruence|]. cbn. rewrite P. split; [intros [-> A]; now repeat split|intros [_ [-> A]]; now split].
  - destruct (next_token (s_lex st)) as [[t s] l|] eqn:T; [|discriminate]. injection 1 as <-. split; [|now split].
    intros [|x us] N; [congruence|]. cbn. rewrite P. split.
    + intros [-> A]. split; [reflexivity|]. exists l. now split.
    + intros [_ (l' & E & A)]. rewrite T in E. injection E as <- <-. now split.
Qed.
Lemma peek_eats st t st' : p_peek st = XOk t st' -> eats st [] st'.
Proof.
  unfold p_peek. destruct (s_peek st) as [[t0 s]|] eqn:P; [injection 1 as _ <-; apply eats_nil|].
  destruct (next_token (s_lex st)) as [[t1 s] l|] eqn:T; [|discriminate]. injection 1 as _ <-. split; [|now split].
  intros [|x us] N; [congruence|]. cbn. rewrite P. destruct us as [|y us]; [reflexivity|]. split.
  - intros [-> [-> A]]. split; [reflexivity|]. exists l. now split.
  - intros [-> (l' & E & A)]. rewrite T in E. injection E as <- <-. now repeat split.
Qed.

Section Logic.
Variable o : options.
Definition good (st : pst) : Prop := s_opts st = o /\ clean st.
Lemma eats_good st xs st' : eats st xs st' -> good st -> good st'.
Proof. intros E [G C]. split; [destruct E as [_ [E _]]; congruence|eapply eats_clean; eauto]. Qed.
(** Run at the token [t] without errors, [p] returns some [a] having read some [ts] with [R a ts]; and if it fails there is an error. *)
Definition reads_at {A} (t : tok) (p : prog A) (R : A -> list tok -> Prop) : Prop :=
  forall st, good st -> s_tok st = t ->
  match run p st with
  | ROk a st' => ne st' = ne st -> exists xs, eats st xs st' /\ R a (map fst xs)
  | RErr st' => ne st < ne st'
  | _ => True
  end.
Definition reads {A} (p : prog A) R : Prop := forall t, reads_at (A:=A) t p R.
Lemma grown_ok A (p : prog A) st a st' : run p st = ROk a st' -> ne st <= ne st'.
Proof. intros E. pose proof (run_grown A p st) as G. rewrite E in G. apply ne_grown. exact G. Qed.
Lemma grown_err A (p : prog A) st st' : run p st = RErr st' -> ne st <= ne st'.
Proof. intros E. pose proof (run_grown A p st) as G. rewrite E in G. apply ne_grown. exact G. Qed.

(** ** Structural rules *)
Lemma ra_conseq A t (p : prog A) (R R' : A -> list tok -> Prop) : reads_at t p R -> (forall a ts, R a ts -> R' a ts) -> reads_at t p R'.
Proof. intros H I st G T. specialize (H st G T). destruct (run p st); auto. intros E. destruct (H E) as (xs & X & Y). eauto. Qed.
Lemma ra_ret A t (a : A) (R : A -> list tok -> Prop) : R a [] -> reads_at t (Ret a) R.
Proof. intros H st G T. cbn. intros _. exists []. split; [apply eats_nil|exact H]. Qed.
Lemma ra_panic A t w R : reads_at (A:=A) t (Panic w) R.
Proof. intros st G T. exact I. Qed.
Lemma ra_fuel A t R : reads_at (A:=A) t OutOfFuel R.
Proof. intros st G T. exact I. Qed.
Lemma ra_bind A B t (p : prog A) (k : A -> prog B) R1 R : reads_at t p R1 ->
  (forall a ts1, R1 a ts1 -> reads (k a) (fun b ts2 => R b (ts1 ++ ts2))) -> reads_at t (bind p k) R.
Proof.
  intros H1 H2 st G T. rewrite run_bind. specialize (H1 st G T). destruct (run p st) as [a st1|st1|w|] eqn:E1; auto.
  pose proof (grown_ok _ _ _ _ _ E1) as L1. destruct (Nat.eq_dec (ne st1) (ne st)) as [Eq|Neq].
  - destruct (H1 Eq) as (xs & X & Y). specialize (H2 a _ Y _ st1 (eats_good _ _ _ X G) eq_refl).
    destruct (run (k a) st1) as [b st2|st2|w|]; auto; [|lia]. intros E. destruct H2 as (ys & X2 & Y2); [lia|].
    exists (xs ++ ys). split; [eapply eats_app; eauto|]. now rewrite map_app.
  - destruct (run (k a) st1) as [b st2|st2|w|] eqn:E2; auto.
    + pose proof (grown_ok _ _ _ _ _ E2). lia.
    + pose proof (grown_err _ _ _ _ E2). lia.
Qed.
Lemma ra_try A B t (p : prog A) (k : option A -> prog B) R : reads_at t (bind p (fun a => k (Some a))) R -> (forall st, good st -> s_tok st = t -> match run p st with RErr st' => ne st < ne st' | _ => True end) ->
  reads_at t (Try p k) R.
Proof.
  intros H F st G T. specialize (H st G T). specialize (F st G T). rewrite run_bind in H. cbn [run]. destruct (run p st) as [a st1|st1|w|] eqn:E; auto.
  destruct (run (k None) st1) as [b st2|st2|w|] eqn:E2; auto.
  - pose proof (grown_ok _ _ _ _ _ E2). lia.
  - pose proof (grown_err _ _ _ _ E2). lia.
Qed.
Lemma ra_assoc A B C t (p : prog A) (f : A -> prog B) (g : B -> prog C) R :
  reads_at t (bind p (fun x => bind (f x) g)) R -> reads_at t (bind (bind p f) g) R.
Proof.
  intros H st G T. specialize (H st G T). rewrite run_bind in H. rewrite run_bind, run_bind. destruct (run p st); auto. rewrite run_bind in H. exact H.
Qed.
(** A program that never ends without an error. *)
Lemma ra_doomed A t (p : prog A) R : reads_at t p (fun _ _ => False) -> reads_at t p R.
Proof. intros H. eapply ra_conseq; [exact H|contradiction]. Qed.

(** ** Primitives *)
Definition keeps (st st' : pst) : Prop :=
  s_lex st' = s_lex st /\ s_tok st' = s_tok st /\ s_span st' = s_span st /\ s_peek st' = s_peek st /\ s_opts st' = s_opts st /\ s_delim st' = s_delim st.
Lemma keeps_eats st st' : keeps st st' -> eats st [] st'.
Proof. intros (E1 & E2 & E3 & E4 & E5 & E6). split; [|now split]. intros [|x us] N; [congruence|]. cbn. rewrite E1, E2, E3, E4. reflexivity. Qed.
Definition quiet {X} (c : op X) : bool :=
  match c with ONext | OPeek | ORecover _ | OStdin | OSetDelim _ => false | _ => true end.
Lemma issue_keeps l m s fr st st' : p_issue l m s fr st = XOk tt st' -> keeps st st'.
Proof. unfold p_issue. destruct (slice _ _ _); [|discriminate]. destruct (build_frags _ _); [|discriminate]. injection 1 as <-. now repeat split. Qed.
Lemma quiet_keeps X (c : op X) st x st' : quiet c = true -> exec c st = XOk x st' -> keeps st st'.
Proof.
  destruct c; cbn [quiet exec]; intros Q E; try discriminate Q; try (injection E as _ <-; now repeat split).
  - destruct x. eapply issue_keeps; eauto.
  - destruct (o_warn_unquoted _); [destruct x; eapply issue_keeps; eauto|injection E as _ <-; now repeat split].
  - destruct (_ && _); [destruct x; eapply issue_keeps; eauto|injection E as _ <-; now repeat split].
Qed.
Lemma ra_quiet X B t (c : op X) (k : X -> prog B) R : quiet c = true -> (forall x, reads_at t (k x) R) -> reads_at t (bind (perf c) k) R.
Proof.
  intros Q H st G T. rewrite run_bind, run_perf. destruct (exec c st) as [x st1|w|] eqn:E; auto.
  pose proof (quiet_keeps _ _ _ _ _ Q E) as K. specialize (H x st1 (eats_good _ _ _ (keeps_eats _ _ K) G)).
  assert (T1 : s_tok st1 = t) by (destruct K as (_ & -> & _); exact T). specialize (H T1).
  pose proof (ne_grown _ _ (exec_grown _ _ _ _ _ E)) as L. destruct (run (k x) st1) as [b st2|st2|w|] eqn:E2; auto; [|lia].
  intros Eq. pose proof (grown_ok _ _ _ _ _ E2). destruct H as (xs & X1 & Y); [lia|]. exists xs. split; [|exact Y].
  apply (eats_app _ [] _ xs _ (keeps_eats _ _ K) X1).
Qed.
Lemma ra_token B t (k : tok -> prog B) R : reads_at t (k t) R -> reads_at t (bind token k) R.
Proof. intros H st G T. specialize (H st G T). rewrite run_bind, run_token, T. exact H. Qed.
Lemma ra_dialect B t (k : dialect -> prog B) R : reads_at t (k (o_dialect o)) R -> reads_at t (bind dialect_ k) R.
Proof. intros H st G T. specialize (H st G T). rewrite run_bind. unfold dialect_. rewrite run_perf. cbn [exec]. destruct G as [-> _]. exact H. Qed.
Lemma ra_arguments B t (k : arguments -> prog B) R : reads_at t (k (o_arguments o)) R -> reads_at t (bind (perf OArguments) k) R.
Proof. intros H st G T. specialize (H st G T). rewrite run_bind. rewrite run_perf. cbn [exec]. destruct G as [-> _]. exact H. Qed.
Lemma ra_listhack B t (k : bool -> prog B) R : reads_at t (k (o_list_hack o)) R -> reads_at t (bind (perf OListHack) k) R.
Proof. intros H st G T. specialize (H st G T). rewrite run_bind. rewrite run_perf. cbn [exec]. destruct G as [-> _]. exact H. Qed.
Lemma ra_span B t (k : span -> prog B) R : (forall s, reads_at t (k s) R) -> reads_at t (bind cur_span k) R.
Proof. now apply ra_quiet. Qed.
Lemma ra_peek B t (k : tok -> prog B) R : (forall x, reads_at t (k x) R) -> reads_at t (bind peek k) R.
Proof.
  intros H st G T. rewrite run_bind. unfold peek. rewrite run_perf. cbn [exec]. destruct (p_peek st) as [x st1|w|] eqn:E; auto.
  pose proof (peek_eats _ _ _ E) as K. assert (T1 : s_tok st1 = t /\ s_issues st1 = s_issues st).
  { unfold p_peek in E. destruct (s_peek st) as [[]|]; [injection E as _ <-; auto|]. destruct (next_token _) as [[]|]; [|discriminate]. injection E as _ <-. auto. }
  destruct T1 as [T1 T2]. specialize (H x st1 (eats_good _ _ _ K G) T1). assert (En : ne st1 = ne st) by (unfold ne; now rewrite T2). rewrite En in H.
  destruct (run (k x) st1) as [b st2|st2|w|]; auto. intros Eq. destruct (H Eq) as (xs & X1 & Y). exists xs. split; [|exact Y]. apply (eats_app _ [] _ xs _ K X1).
Qed.
Lemma ra_next B t (k : unit -> prog B) R : reads (k tt) (fun b ts => R b (t :: ts)) -> reads_at t (bind next k) R.
Proof.
  intros H st G T. rewrite run_bind. unfold next. rewrite run_perf. cbn [exec]. destruct (p_next st) as [[] st1|w|] eqn:E; auto.
  pose proof (next_eats _ _ E) as K. assert (En : ne st1 = ne st).
  { unfold p_next in E. destruct (s_peek st) as [[]|]; [injection E as <-; auto|]. destruct (next_token _) as [[]|]; [|discriminate]. injection E as <-. auto. }
  specialize (H _ st1 (eats_good _ _ _ K G) eq_refl). rewrite En in H. destruct (run (k tt) st1) as [b st2|st2|w|]; auto.
  intros Eq. destruct (H Eq) as (xs & X1 & Y). eexists. split; [eapply eats_app; eauto|]. cbn. now rewrite T.
Qed.
Lemma ra_consume B t (k : span -> prog B) R : (forall s, reads (k s) (fun b ts => R b (t :: ts))) -> reads_at t (bind consume k) R.
Proof. intros H. unfold consume. apply ra_assoc, ra_span. intros s. apply ra_assoc, ra_next. apply H. Qed.
(** Errors *)
Lemma ra_error B t m s fr (k : unit -> prog B) R : reads_at t (bind (err_frags m s fr) k) R.
Proof.
  intros st G T. rewrite run_bind. unfold err_frags. rewrite run_perf. cbn [exec]. unfold p_issue. destruct (slice _ _ _); [|exact I]. destruct (build_frags _ _); [|exact I].
  assert (L : ne st < ne (set_issues st (s_issues st ++ [mkIssue Error m s t0 l]))) by (unfold ne, set_issues; cbn [s_issues]; rewrite filter_app, app_length; cbn; lia).
  set (st1 := set_issues _ _) in *. destruct (run (k tt) st1) as [b st2|st2|w|] eqn:E2; auto.
  - pose proof (grown_ok _ _ _ _ _ E2). lia.
  - pose proof (grown_err _ _ _ _ E2). lia.
Qed.
Lemma ra_err B t m s (k : unit -> prog B) R : reads_at t (bind (err m s) k) R.
Proof. apply ra_error. Qed.
Lemma ra_err_at B t m s (k : unit -> prog B) R : reads_at t (bind (err_at m s) k) R.
Proof. destruct s; cbn [err_at bind]; (apply ra_err || apply ra_panic). Qed.
Lemma ra_expected_error B t m (k : unit -> prog B) R : reads_at t (bind (expected_error m) k) R.
Proof. unfold expected_error. apply ra_assoc, ra_span. intros s. apply ra_error. Qed.
Lemma ra_expected_failure A B t m (k : A -> prog B) R : reads_at t (bind (expected_failure m) k) R.
Proof. unfold expected_failure. apply ra_assoc, ra_expected_error. Qed.
Lemma ra_expected_failure' A t m R : reads_at (A:=A) t (expected_failure m) R.
Proof. apply ra_expected_error. Qed.
Lemma ra_err_here A B t m (k : A -> prog B) R : reads_at t (bind (err_here m) k) R.
Proof. unfold err_here. apply ra_assoc, ra_span. intros s. apply ra_assoc, ra_err. Qed.
Lemma ra_err_here' A t m R : reads_at (A:=A) t (err_here m) R.
Proof. unfold err_here. apply ra_span. intros s. apply ra_err. Qed.
(** [recover] happens after errors only. *)
Lemma ra_recovered_end B t x e (k : unit -> prog B) R : (e t = true -> reads_at t (k tt) R) -> reads_at t (bind (recovered_end x e) k) R.
Proof. intros H. unfold recovered_end. apply ra_assoc, ra_token. destruct (e t); [exact (H eq_refl)|apply ra_assoc, ra_expected_error]. Qed.
Lemma reads_fails A t (p : prog A) R : reads_at t p R -> forall st, good st -> s_tok st = t -> match run p st with RErr st' => ne st < ne st' | _ => True end.
Proof. intros H st G T. specialize (H st G T). destruct (run p st); auto. Qed.
Lemma ra_try' A B t (p : prog A) (k : option A -> prog B) R1 R : reads_at t p R1 ->
  (forall a ts1, R1 a ts1 -> reads (k (Some a)) (fun b ts2 => R b (ts1 ++ ts2))) -> reads_at t (Try p k) R.
Proof. intros H1 H2. apply ra_try; [eapply ra_bind; eauto|eapply reads_fails; eauto]. Qed.
Lemma ra_recovered A t (d : A) x e p R : reads_at t p R -> reads_at t (recovered d x e p) R.
Proof.
  intros H. unfold recovered. change (reads_at t (Try p (fun r => bind match r with Some v => Ret v | None => recover e ;;; Ret d end (fun a => recovered_end x e ;;; Ret a))) R).
  eapply ra_try'; [exact H|]. intros a ts1 H1 t1. cbv beta iota. change (reads_at t1 (recovered_end x e ;;; Ret a) (fun b ts2 => R b (ts1 ++ ts2))).
  apply ra_recovered_end. intros _. apply ra_ret. now rewrite app_nil_r.
Qed.
(** A parser that pushes into a captured vector: without errors it ends in [Ok]. *)
Definition fine {A} (R : A -> list tok -> Prop) : A * bool -> list tok -> Prop := fun x ts => snd x = true /\ R (fst x) ts.
Lemma ra_recovered_acc A t x e (p : prog (A * bool)) R : reads_at t p (fine R) -> reads_at t (recovered_acc x e p) R.
Proof.
  intros H. unfold recovered_acc. eapply ra_bind; [exact H|]. intros [a ok] ts1 [Ok H1] t1. cbn [fst snd] in *. subst ok. cbv iota.
  change (reads_at t1 (recovered_end x e ;;; Ret a) (fun b ts2 => R b (ts1 ++ ts2))). apply ra_recovered_end. intros _. apply ra_ret. now rewrite app_nil_r.
Qed.
Lemma reads_loop S A (body : S -> prog (S + A)) (I : S -> list tok -> Prop) R :
  (forall s ts1, I s ts1 -> reads (body s) (fun r ts2 => match r with inl s' => I s' (ts1 ++ ts2) | inr x => R x (ts1 ++ ts2) end)) ->
  forall n s ts0, I s ts0 -> reads (loop n body s) (fun x ts => R x (ts0 ++ ts)).
Proof.
  intros B. induction n as [|n IH]; intros s ts0 H t; [apply ra_fuel|]. cbn [loop]. eapply ra_bind; [apply B; exact H|].
  intros [s'|x] ts1 H1 t1; cbv beta iota in *.
  - eapply ra_conseq; [apply (IH s' (ts0 ++ ts1) H1)|]. intros a ts. cbv beta. now rewrite app_assoc.
  - apply ra_ret. now rewrite app_nil_r.
Qed.
Lemma reads_loop_acc S (body : S -> prog (S * ctl)) (I R : S -> list tok -> Prop) :
  (forall s ts1, I s ts1 -> reads (body s) (fun r ts2 => match snd r with Continue => I (fst r) (ts1 ++ ts2) | Break => R (fst r) (ts1 ++ ts2) | Abort => False end)) ->
  forall n s ts0, I s ts0 -> reads (loop_acc n body s) (fine (fun x ts => R x (ts0 ++ ts))).
Proof.
  intros B. induction n as [|n IH]; intros s ts0 H t; [apply ra_fuel|]. cbn [loop_acc]. eapply ra_try'; [apply B; exact H|].
  intros [s' c] ts1 H1 t1; cbn [fst snd] in *; destruct c; cbv iota.
  - eapply ra_conseq; [apply (IH s' (ts0 ++ ts1) H1)|]. intros a ts [X Y]. split; [exact X|]. now rewrite <- app_assoc in Y.
  - apply ra_ret. split; [reflexivity|]. cbn [fst]. now rewrite app_nil_r.
  - contradiction.
Qed.

Lemma ra_loop S A (body : S -> prog (S + A)) (I : S -> list tok -> Prop) R n s t : I s [] ->
  (forall s ts1, I s ts1 -> reads (body s) (fun r ts2 => match r with inl s' => I s' (ts1 ++ ts2) | inr x => R x (ts1 ++ ts2) end)) ->
  reads_at t (loop n body s) R.
Proof. intros H0 H. exact (reads_loop _ _ _ _ _ H n s [] H0 t). Qed.
Lemma ra_loop_acc S (body : S -> prog (S * ctl)) (I R : S -> list tok -> Prop) n s t : I s [] ->
  (forall s ts1, I s ts1 -> reads (body s) (fun r ts2 => match snd r with Continue => I (fst r) (ts1 ++ ts2) | Break => R (fst r) (ts1 ++ ts2) | Abort => False end)) ->
  reads_at t (loop_acc n body s) (fine R).
Proof. intros H0 H. exact (reads_loop_acc _ _ _ _ H n s [] H0 t). Qed.

(** ** Following a sequence of the grammar *)
Definition follow {A} (l : list g) (R : A -> list tok -> Prop) : A -> list tok -> Prop :=
  fun a ts => exists t1 t2, ts = t1 ++ t2 /\ derives o (Seq l) t1 /\ R a t2.
Definition calls {A} (p : prog A) (a : g) : Prop := reads p (fun _ => derives o a).
Definition any {A} : A -> list tok -> Prop := fun _ ts => ts = [].
Lemma d_app l1 l2 ts : derives o (Seq (l1 ++ l2)) ts -> exists a b, ts = a ++ b /\ derives o (Seq l1) a /\ derives o (Seq l2) b.
Proof.
  revert ts. induction l1 as [|x l1 IH]; intros ts H; [exists [], ts; repeat split; [constructor|exact H]|]. cbn [app] in H. inversion H; subst.
  match goal with X : derives o (Seq (l1 ++ l2)) _ |- _ => apply IH in X as (a & b & -> & Y & Z) end. eexists (_ ++ a), b. rewrite <- app_assoc. repeat split; [|exact Z]. now constructor.
Qed.
Lemma d_app' l1 l2 a b : derives o (Seq l1) a -> derives o (Seq l2) b -> derives o (Seq (l1 ++ l2)) (a ++ b).
Proof.
  revert a. induction l1 as [|x l1 IH]; intros a H1 H2; inversion H1; subst; [exact H2|]. cbn [app]. rewrite <- app_assoc. constructor; auto.
Qed.
Lemma d_cons_inv a l ts : derives o (Seq (a :: l)) ts -> exists t1 t2, ts = t1 ++ t2 /\ derives o a t1 /\ derives o (Seq l) t2.
Proof. intros H. inversion H; subst. eauto. Qed.
Lemma d_nil_inv ts : derives o (Seq []) ts -> ts = [].
Proof. intros H. now inversion H. Qed.
Lemma d_one a ts : derives o a ts <-> derives o (Seq [a]) ts.
Proof.
  split; intros H.
  - rewrite <- (app_nil_r ts). constructor; [exact H|constructor].
  - apply d_cons_inv in H as (t1 & t2 & -> & X & Y). apply d_nil_inv in Y as ->. now rewrite app_nil_r.
Qed.
Lemma f_done A t (p : prog A) a : reads_at t p (follow [a] any) -> reads_at t p (fun _ => derives o a).
Proof. intros H. eapply ra_conseq; [exact H|]. intros x ts (t1 & t2 & -> & X & ->). rewrite app_nil_r. now apply d_one. Qed.
Lemma f_calls A (p : prog A) a : (forall t, reads_at t p (follow [a] any)) -> calls p a.
Proof. intros H t. apply f_done, H. Qed.
Lemma f_cons A B t (p : prog A) (k : A -> prog B) a l R : calls p a -> (forall x, reads (k x) (follow l R)) -> reads_at t (bind p k) (follow (a :: l) R).
Proof.
  intros H1 H2. eapply ra_bind; [apply H1|]. intros x ts1 H t1. eapply ra_conseq; [apply H2|]. intros y ts (a1 & a2 & -> & X & Y).
  exists (ts1 ++ a1), a2. rewrite app_assoc. repeat split; [now constructor|exact Y].
Qed.
Lemma f_last A t (p : prog A) a : calls p a -> reads_at t p (follow [a] any).
Proof. intros H. eapply ra_conseq; [apply H|]. intros x ts X. exists ts, []. rewrite app_nil_r. repeat split. exact (proj1 (d_one _ _) X). Qed.
Lemma f_end A t (p : prog A) R : reads_at t p R -> reads_at t p (follow [] R).
Proof. intros H. eapply ra_conseq; [exact H|]. intros a ts X. exists [], ts. repeat split; [constructor|exact X]. Qed.
Lemma f_ret A t (a : A) (R : A -> list tok -> Prop) : R a [] -> reads_at t (Ret a) (follow [] R).
Proof. intros H. now apply f_end, ra_ret. Qed.
Lemma f_weaken A t (p : prog A) l l' R : reads_at t p (follow l R) -> (forall ts, derives o (Seq l) ts -> derives o (Seq l') ts) -> reads_at t p (follow l' R).
Proof. intros H D. eapply ra_conseq; [exact H|]. intros a ts (t1 & t2 & -> & X & Y). exists t1, t2. repeat split; auto. Qed.
Lemma d_head a b l ts : (forall us, derives o a us -> derives o b us) -> derives o (Seq (a :: l)) ts -> derives o (Seq (b :: l)) ts.
Proof. intros H D. inversion D; subst. constructor; auto. Qed.
Lemma f_seq A t (p : prog A) m l Q : reads_at t p (follow (m ++ l) Q) -> reads_at t p (follow (Seq m :: l) Q).
Proof. intros H. eapply f_weaken; [exact H|]. intros ts D. apply d_app in D as (a & b & -> & X & Y). now constructor. Qed.
Lemma f_rule A t (p : prog A) n l Q : reads_at t p (follow (rule o n :: l) Q) -> reads_at t p (follow (N_ n :: l) Q).
Proof. intros H. eapply f_weaken; [exact H|]. intros ts. apply d_head. apply d_rule. Qed.
Lemma f_alt A t (p : prog A) i m a l Q : nth_error m i = Some a -> reads_at t p (follow (a :: l) Q) -> reads_at t p (follow (Alt m :: l) Q).
Proof. intros E H. eapply f_weaken; [exact H|]. intros ts. apply d_head. intros us. apply d_alt. eapply nth_error_In; eauto. Qed.
Lemma f_opt_no A t (p : prog A) a l Q : reads_at t p (follow l Q) -> reads_at t p (follow (Opt a :: l) Q).
Proof. intros H. eapply f_weaken; [exact H|]. intros ts D. apply (d_cons o (Opt a) l [] ts); [constructor|exact D]. Qed.
Lemma f_opt_yes A t (p : prog A) a l Q : reads_at t p (follow (a :: l) Q) -> reads_at t p (follow (Opt a :: l) Q).
Proof. intros H. eapply f_weaken; [exact H|]. intros ts. apply d_head. apply d_some. Qed.
Lemma f_star_no A t (p : prog A) a l Q : reads_at t p (follow l Q) -> reads_at t p (follow (Star a :: l) Q).
Proof. intros H. eapply f_weaken; [exact H|]. intros ts D. apply (d_cons o (Star a) l [] ts); [constructor|exact D]. Qed.
Lemma f_star_yes A t (p : prog A) a l Q : reads_at t p (follow (a :: Star a :: l) Q) -> reads_at t p (follow (Star a :: l) Q).
Proof.
  intros H. eapply f_weaken; [exact H|]. intros ts D. apply d_cons_inv in D as (t1 & t2 & -> & X & Y). apply d_cons_inv in Y as (t3 & t4 & -> & Y & Z). rewrite app_assoc. constructor; [now constructor|assumption].
Qed.
Lemma d_cons_follow A a l (R : A -> list tok -> Prop) b ts us : derives o a ts -> follow l R b us -> follow (a :: l) R b (ts ++ us).
Proof. intros D (t1 & t2 & -> & X & Y). exists (ts ++ t1), t2. rewrite app_assoc. repeat split; [|exact Y]. now constructor. Qed.
(** [p] reads the first [n] elements. *)
Lemma f_take A B t (p : prog A) (k : A -> prog B) n l (R : B -> list tok -> Prop) :
  reads_at t p (follow (firstn n l) any) -> (forall x, reads (k x) (follow (skipn n l) R)) -> reads_at t (bind p k) (follow l R).
Proof.
  intros H1 H2. eapply ra_bind; [exact H1|]. intros x ts1 (a1 & a2 & -> & H & ->) t1. eapply ra_conseq; [apply H2|]. intros y ts (b1 & b2 & -> & X & Y).
  exists (a1 ++ b1), b2. rewrite app_nil_r, app_assoc. repeat split; [|exact Y]. rewrite <- (firstn_skipn n l). now apply d_app'.
Qed.
End Logic.
