(** C51: rules for the methods of the parser, and a tactic that follows the grammar along a program. *)
From Verif Require Export Accept LexerFacts.
Local Open Scope string_scope.
Local Open Scope list_scope.

Lemma kw_assoc_in A (tbl : list (string * A)) t k c : kw_assoc tbl t = Some (k, c) -> In k (map fst tbl) /\ is_kw t k = true.
Proof. induction tbl as [|[k' v] tbl IH]; cbn; [discriminate|]. destruct (is_kw t k') eqn:E; [injection 1 as -> ->; auto|]. intros H. destruct (IH H). auto. Qed.

Section Rules.
Variable o : options.
Notation reads_at := (reads_at o). Notation reads := (reads o). Notation follow := (follow o). Notation calls := (calls o).
Lemma ra_clean A t (p : prog A) R : (is_kw t "STDIN" = false -> reads_at t p R) -> reads_at t p R.
Proof.
  intros H st G T. assert (X : is_kw t "STDIN" = false); [|exact (H X st G T)]. destruct G as [_ C]. specialize (C [(s_tok st, s_span st)]).
  assert (Y : ahead st [(s_tok st, s_span st)]) by (cbn; split; [reflexivity|]; now destruct (s_peek st)). apply C in Y. inversion Y; subst. assumption.
Qed.
Lemma ra_consume' t (R : span -> list tok -> Prop) : (forall s, R s [t]) -> reads_at t consume R.
Proof. intros H. unfold consume. apply ra_span. intros s. apply ra_next. intros t1. apply ra_ret. apply H. Qed.
Lemma ra_keyword' t k : reads_at t (consume_keyword k) (fun _ ts => ts = [t] /\ is_kw t k = true).
Proof.
  unfold consume_keyword. apply ra_token. destruct t; try apply ra_expected_failure'.
  destruct (kw_eqb k0 (KW k)) eqn:E; [|apply ra_expected_failure'].
  apply ra_span. intros s. apply ra_quiet; [reflexivity|]. intros u. apply ra_consume'. intros _. now split.
Qed.
Lemma c_keyword k : calls (consume_keyword k) (W k).
Proof. intros t. eapply ra_conseq; [apply ra_keyword'|]. intros _ ts [-> H]. now constructor. Qed.
Lemma ra_stdin B t (k : span -> prog B) R : reads_at t (bind (consume_keyword "STDIN") k) R.
Proof. apply ra_clean. intros C. eapply ra_bind; [apply ra_keyword'|]. intros a ts [_ H]. congruence. Qed.
Lemma c_keywords_from ks : forall s, calls (consume_keywords_from s ks) (words ks).
Proof.
  induction ks as [|k ks IH]; intros s t; cbn [consume_keywords_from]; [apply ra_ret; constructor|].
  eapply ra_bind; [apply c_keyword|]. intros a ts1 H t1. eapply ra_conseq; [apply IH|]. intros x ts2 H2. now constructor.
Qed.
Lemma c_keywords k ks : calls (consume_keywords (k :: ks)) (words (k :: ks)).
Proof. intros t. cbn [consume_keywords]. eapply ra_bind; [apply c_keyword|]. intros a ts1 H t1. eapply ra_conseq; [apply c_keywords_from|]. intros x ts2 H2. now constructor. Qed.
Lemma ra_token' t w : reads_at t (consume_token w) (fun _ ts => ts = [t] /\ t = w).
Proof. unfold consume_token. apply ra_token. destruct (tok_eqb t w) eqn:E; [|apply ra_expected_failure']. apply tok_eqb_eq in E as ->. now apply ra_consume'. Qed.
Lemma c_token w : calls (consume_token w) (T w).
Proof. intros t. eapply ra_conseq; [apply ra_token'|]. intros _ ts [-> ->]. constructor. Qed.
Lemma c_name : calls consume_plain_identifier name.
Proof.
  intros t. unfold consume_plain_identifier. apply ra_token. destruct t as [| | | | | | | | | | | | | | | | |v k| | | | | | | | | | | | | | | | | | | | | | | |v|v| | | | | | |] eqn:Et; try apply ra_expected_failure'.
  - apply ra_span. intros s. apply ra_dialect. destruct (kw_reserved k) eqn:K; [apply ra_error|]. destruct (kw_eqb k QUOTED_IDENTIFIER) eqn:E; cbn [negb].
    + destruct (is_postgresql _) eqn:P; [apply ra_err|]. change (reads_at (TIdent v k) (c <- consume;; Ret (mkIdent v c)) (fun _ => derives o name)).
      apply ra_consume. intros s0 t1. apply ra_ret. constructor. cbn. now rewrite K, E, P.
    + apply ra_quiet; [reflexivity|]. intros _. apply ra_consume. intros s0 t1. apply ra_ret. constructor. cbn. now rewrite K, E.
  - apply ra_dialect. destruct (is_postgresql _) eqn:P; [|apply ra_expected_failure']. apply ra_consume. intros s0 t1. apply ra_ret. constructor. exact P.
Qed.
Lemma c_int m : calls (consume_int m) (C (CInt m)).
Proof.
  intros t. unfold consume_int. apply ra_token. destruct t; try apply ra_expected_failure'. destruct (_ <=? m)%N eqn:E.
  - apply ra_consume. intros s t1. apply ra_ret. now constructor.
  - apply ra_assoc, ra_span. intros s. apply ra_assoc, ra_err.
Qed.
Lemma c_float : calls consume_float (C CFloat).
Proof. intros t. unfold consume_float. apply ra_token. destruct t; try apply ra_expected_failure'. apply ra_consume. intros s t1. apply ra_ret. now constructor. Qed.
(** Skipping *)
Lemma ra_skip_kw B t k (f : option span -> prog B) R : (is_kw t k = true -> forall s, reads (f (Some s)) (fun b ts => R b (t :: ts))) ->
  (is_kw t k = false -> reads_at t (f None) R) -> reads_at t (bind (skip_keyword k) f) R.
Proof.
  intros H1 H2. unfold skip_keyword. apply ra_assoc, ra_token. destruct (is_kw t k) eqn:E; [|exact (H2 eq_refl)].
  eapply ra_try'; [apply ra_keyword'|]. intros a ts1 [-> _] t1. cbn [bind]. apply (H1 eq_refl).
Qed.
Lemma ra_skip_tok B t w (f : option span -> prog B) R : (t = w -> forall s, reads (f (Some s)) (fun b ts => R b (t :: ts))) ->
  (tok_eqb t w = false -> reads_at t (f None) R) -> reads_at t (bind (skip_token w) f) R.
Proof.
  intros H1 H2. unfold skip_token. apply ra_assoc, ra_token. destruct (tok_eqb t w) eqn:E; [|exact (H2 eq_refl)].
  apply tok_eqb_eq in E. apply ra_assoc, ra_consume. intros s t1. cbn [bind]. now apply H1.
Qed.
Lemma ret_skip A t (p : prog A) R : reads_at t (bind p Ret) R -> reads_at t p R.
Proof. intros H st G T. specialize (H st G T). rewrite run_bind in H. destruct (run p st); auto. Qed.
Lemma c_skip_kw k : calls (skip_keyword k) (Opt (W k)).
Proof. intros t. apply ret_skip, ra_skip_kw; [intros E s t1|intros _]; apply ra_ret; constructor. now constructor. Qed.
Lemma c_skip_tok w : calls (skip_token w) (Opt (T w)).
Proof. intros t. apply ret_skip, ra_skip_tok; [intros -> s t1|intros _]; apply ra_ret; constructor. constructor. Qed.
(** Lists *)
Definition opened (a : g) (ts : list tok) : Prop := ts = [] \/ exists t0, ts = t0 ++ [TComma] /\ derives o (commas a) t0.
Lemma d_snoc a ts us : derives o (Star a) ts -> derives o a us -> derives o (Star a) (ts ++ us).
Proof.
  intros H U. remember (Star a) as s eqn:E. revert E. induction H; intros E; try discriminate; injection E as ->.
  - rewrite <- (app_nil_r us). cbn [app]. constructor; [exact U|constructor].
  - rewrite <- app_assoc. constructor; auto.
Qed.
Lemma d_commas a t0 us : derives o (commas a) t0 -> derives o a us -> derives o (commas a) (t0 ++ TComma :: us).
Proof.
  intros H U. apply d_cons_inv in H as (t1 & t2 & -> & X & Y). apply d_cons_inv in Y as (t3 & t4 & -> & Y & Z). apply d_nil_inv in Z as ->.
  rewrite app_nil_r, <- app_assoc. constructor; [exact X|]. apply (proj1 (d_one _ _ _)). apply d_snoc; [exact Y|].
  change (TComma :: us) with ([TComma] ++ us). constructor; [constructor|]. now apply (proj1 (d_one _ _ _)).
Qed.
Lemma opened_close a ts us : opened a ts -> derives o a us -> derives o (commas a) (ts ++ us).
Proof.
  intros [->|(t0 & -> & H)] U.
  - cbn [app]. rewrite <- (app_nil_r us). constructor; [exact U|]. change (@nil tok) with ([] ++ @nil tok). constructor; constructor.
  - rewrite <- app_assoc. now apply d_commas.
Qed.
Lemma c_sep_list A n (p : prog A) a : calls p a -> calls (sep_list n p) (commas a).
Proof.
  intros H t. unfold sep_list. apply (ra_loop o _ _ _ (fun _ => opened a)); [now left|].
  intros l ts1 O t1. eapply ra_bind; [apply H|]. intros x ts2 H2 t2. apply ra_skip_tok.
  - intros -> s t3. apply ra_ret. right. exists (ts1 ++ ts2). split; [now rewrite <- app_assoc|]. now apply opened_close.
  - intros _. apply ra_ret. rewrite app_nil_r. now apply opened_close.
Qed.
Lemma c_sep_list_recovered A n x (p : prog A) a : calls p a -> calls (sep_list_recovered n x p) (commas a).
Proof.
  intros H t. unfold sep_list_recovered. apply ra_recovered_acc. apply (ra_loop_acc o _ _ (fun _ => opened a)); [now left|].
  intros l ts1 O t1. eapply ra_bind; [apply H|]. intros y ts2 H2 t2. apply ra_skip_tok.
  - intros -> s t3. apply ra_ret. cbn [fst snd]. right. exists (ts1 ++ ts2). split; [now rewrite <- app_assoc|]. now apply opened_close.
  - intros _. apply ra_ret. cbn [fst snd]. rewrite app_nil_r. now apply opened_close.
Qed.
Lemma c_recovered_list A n (p : prog A) a : calls p a -> calls (recovered_list n p) (commas a).
Proof.
  intros H t. unfold recovered_list. apply (ra_loop o _ _ _ (fun _ => opened a)); [now left|].
  intros l ts1 O t1. eapply (ra_bind _ _ _ _ _ _ (fun _ => derives o a)).
  { apply ra_recovered. eapply ra_bind; [apply H|]. intros y ts2 H2 t2. apply ra_ret. now rewrite app_nil_r. }
  intros x ts2 H2 t2. cbv zeta. apply ra_skip_tok.
  - intros -> s t3. apply ra_ret. right. exists (ts1 ++ ts2). split; [now rewrite <- app_assoc|]. now apply opened_close.
  - intros _. apply ra_ret. rewrite app_nil_r. now apply opened_close.
Qed.
Lemma c_recovered_list2 A n (p : prog A) a : calls p a -> calls (recovered_list2 n p) (commas a).
Proof.
  intros H t. unfold recovered_list2. apply (ra_loop o _ _ _ (fun _ => opened a)); [now left|].
  intros l ts1 O t1. eapply (ra_bind _ _ _ _ _ _ (fun _ => derives o a)).
  { apply ra_recovered. eapply ra_bind; [apply H|]. intros y ts2 H2 t2. apply ra_ret. now rewrite app_nil_r. }
  intros x ts2 H2 t2. cbv zeta. apply ra_token. destruct (tok_eqb t2 TRParen).
  - apply ra_ret. rewrite app_nil_r. now apply opened_close.
  - eapply ra_bind; [apply ra_token'|]. intros s ts3 [-> ->] t3. apply ra_ret. right. exists (ts1 ++ ts2). split; [now rewrite <- app_assoc|]. now apply opened_close.
Qed.
(** A loop whose iterations read an [a] or end. *)
Definition turn {S A} (a : g) : S + A -> list tok -> Prop := fun r ts => match r with inl _ => derives o a ts | inr _ => ts = [] end.
Lemma c_loop S A (body : S -> prog (S + A)) a : (forall s, reads (body s) (turn a)) -> forall n s, calls (loop n body s) (Star a).
Proof.
  intros H n s t. apply (ra_loop o _ _ _ (fun _ => derives o (Star a))); [constructor|].
  intros s1 ts1 O t1. eapply ra_conseq; [apply H|]. intros [s2|x] ts2; cbn [turn].
  - intros H2. now apply d_snoc.
  - intros ->. now rewrite app_nil_r.
Qed.
Definition turn_acc {S} (a : g) : S * ctl -> list tok -> Prop :=
  fun r ts => match snd r with Continue => derives o a ts | Break => ts = [] | Abort => False end.
Lemma c_loop_acc S (body : S -> prog (S * ctl)) x e a : (forall s, reads (body s) (turn_acc a)) -> forall n s, calls (recovered_acc x e (loop_acc n body s)) (Star a).
Proof.
  intros H n s t. apply ra_recovered_acc. apply (ra_loop_acc o _ _ (fun _ => derives o (Star a))); [constructor|].
  intros s1 ts1 O t1. eapply ra_conseq; [apply H|]. intros [s2 []] ts2; cbn [turn_acc fst snd].
  - intros H2. now apply d_snoc.
  - intros ->. now rewrite app_nil_r.
  - auto.
Qed.
Definition inl_ {S A} : S + A -> list tok -> Prop := fun r ts => ts = [] /\ match r with inl _ => True | inr _ => False end.
Lemma t_more S A t (p : prog (S + A)) a : reads_at t p (follow [a] inl_) -> reads_at t p (turn a).
Proof. intros H. eapply ra_conseq; [exact H|]. intros [s|x] ts (t1 & t2 & -> & X & -> & Y); [rewrite app_nil_r; apply (proj2 (d_one _ _ _)), X|contradiction]. Qed.
Lemma t_end S A t (x : A) a : reads_at t (Ret (inr x : S + A)) (turn a).
Proof. now apply ra_ret. Qed.
Definition cont_ {S} : S * ctl -> list tok -> Prop := fun r ts => ts = [] /\ snd r = Continue.
Lemma ta_more S t (p : prog (S * ctl)) a : reads_at t p (follow [a] cont_) -> reads_at t p (turn_acc a).
Proof. intros H. eapply ra_conseq; [exact H|]. intros [s x] ts (t1 & t2 & -> & X & -> & Y). unfold turn_acc. cbn [snd] in *. subst x. rewrite app_nil_r. apply (proj2 (d_one _ _ _)), X. Qed.
Lemma ta_end S t (x : S) a : reads_at t (Ret (x, Break)) (turn_acc a).
Proof. now apply ra_ret. Qed.
Definition maybe {A} (a : g) : option A -> list tok -> Prop := fun r ts => match r with Some _ => derives o a ts | None => ts = [] end.
Definition given {A} : option A -> list tok -> Prop := fun r ts => ts = [] /\ match r with Some _ => True | None => False end.
Lemma m_more A t (p : prog (option A)) a : reads_at t p (follow [a] given) -> reads_at t p (maybe a).
Proof. intros H. eapply ra_conseq; [exact H|]. intros [s|] ts (t1 & t2 & -> & X & -> & Y); [rewrite app_nil_r; apply (proj2 (d_one _ _ _)), X|contradiction]. Qed.
Lemma m_end A t a : reads_at t (Ret (None : option A)) (maybe a).
Proof. now apply ra_ret. Qed.
Lemma m_calls A (p : prog (option A)) a : reads p (maybe a) -> calls p (Opt a).
Proof. intros H t. eapply ra_conseq; [apply H|]. intros [x|] ts; cbn [maybe]; [intros X; now constructor|intros ->; constructor]. Qed.
Lemma m_loop S A B (p : prog (option B)) (f : option B -> prog (S + A)) a t : reads p (maybe a) -> (forall x, exists s, f (Some x) = Ret (inl s)) -> (exists x, f None = Ret (inr x)) ->
  reads_at t (bind p f) (turn a).
Proof.
  intros H F1 [y F2]. eapply ra_bind; [apply H|]. intros [x|] ts1 H1 t1; cbn [maybe] in H1.
  - destruct (F1 x) as [s ->]. apply ra_ret. rewrite app_nil_r. exact H1.
  - subst ts1. rewrite F2. now apply ra_ret.
Qed.
Lemma t_maybe S A B (p : prog (option B)) (f : option B -> prog (S + A)) a l t : reads p (maybe a) -> (forall x, reads (f (Some x)) (follow l inl_)) ->
  (exists x, f None = Ret (inr x)) -> reads_at t (bind p f) (turn (Seq (a :: l))).
Proof.
  intros H F1 [y F2]. eapply ra_bind; [apply H|]. intros [x|] ts1 H1 t1; cbn [maybe] in H1.
  - eapply ra_conseq; [apply F1|]. intros [b|b] ts (a1 & a2 & -> & X & -> & Y); [|contradiction]. cbn [turn]. rewrite app_nil_r. now constructor.
  - subst ts1. rewrite F2. now apply ra_ret.
Qed.
Lemma doom_bind A B t (p : prog A) (k : A -> prog B) a : calls p a -> (forall x, reads (k x) (fun _ _ => False)) -> reads_at t (bind p k) (fun _ _ => False).
Proof. intros H1 H2. eapply ra_bind; [apply H1|]. intros x ts _ t1. apply H2. Qed.
(** Programs that read nothing. *)
Definition silent {A} (p : prog A) : Prop := reads p (fun _ ts => ts = []).
Lemma f_silent A B t (p : prog A) (k : A -> prog B) l R : silent p -> (forall x, reads (k x) (follow l R)) -> reads_at t (bind p k) (follow l R).
Proof. intros H1 H2. eapply ra_bind; [apply H1|]. intros x ts1 -> t1. apply H2. Qed.
(** Consuming a token that has been looked at. *)
Lemma f_consume B t (k : span -> prog B) a l R : derives o a [t] -> (forall s, reads (k s) (follow l R)) -> reads_at t (bind consume k) (follow (a :: l) R).
Proof.
  intros H1 H2. apply ra_consume. intros s t1. eapply ra_conseq; [apply H2|]. intros b ts (a1 & a2 & -> & X & Y). exists (t :: a1), a2. repeat split; [|exact Y].
  now apply (d_cons o a l [t] a1).
Qed.
Lemma f_optional B t a m l (p : prog B) R : reads_at t p (follow (a :: m ++ l) R) -> reads_at t p (follow (Opt (Seq (a :: m)) :: l) R).
Proof.
  intros H. eapply f_weaken; [exact H|]. intros ts X. change (a :: m ++ l) with ((a :: m) ++ l) in X. apply d_app in X as (c & d & -> & X & Z).
  constructor; [|exact Z]. now constructor.
Qed.
Lemma f_skip_kw B t k (f : option span -> prog B) m l (R : B -> list tok -> Prop) : (forall s, reads (f (Some s)) (follow (m ++ l) R)) -> reads_at t (f None) (follow l R) ->
  reads_at t (bind (skip_keyword k) f) (follow (Opt (Seq (W k :: m)) :: l) R).
Proof.
  intros H1 H2. apply ra_skip_kw.
  - intros E s t1. eapply ra_conseq; [apply H1|]. intros b ts (a1 & a2 & -> & X & Y). apply d_app in X as (c & d & -> & X & Z).
    exists (t :: c ++ d), a2. repeat split; [|exact Y].
    change (t :: c ++ d) with ((t :: c) ++ d). constructor; [|exact Z]. constructor. change (t :: c) with ([t] ++ c). constructor; [now constructor|exact X].
  - intros _. now apply f_opt_no.
Qed.
Lemma f_skip_tok B t w (f : option span -> prog B) m l (R : B -> list tok -> Prop) : (forall s, reads (f (Some s)) (follow (m ++ l) R)) -> reads_at t (f None) (follow l R) ->
  reads_at t (bind (skip_token w) f) (follow (Opt (Seq (T w :: m)) :: l) R).
Proof.
  intros H1 H2. apply ra_skip_tok.
  - intros -> s t1. eapply ra_conseq; [apply H1|]. intros b ts (a1 & a2 & -> & X & Y). apply d_app in X as (c & d & -> & X & Z).
    exists (w :: c ++ d), a2. repeat split; [|exact Y].
    change (w :: c ++ d) with ((w :: c) ++ d). constructor; [|exact Z]. constructor. change (w :: c) with ([w] ++ c). constructor; [now constructor|exact X].
  - intros _. now apply f_opt_no.
Qed.
Lemma f_skip_kw1 B t k (f : option span -> prog B) l (R : B -> list tok -> Prop) : (forall s, reads (f (Some s)) (follow l R)) -> reads_at t (f None) (follow l R) ->
  reads_at t (bind (skip_keyword k) f) (follow (Opt (W k) :: l) R).
Proof.
  intros H1 H2. apply ra_skip_kw.
  - intros E s t1. eapply ra_conseq; [apply H1|]. intros b ts (a1 & a2 & -> & X & Y). exists (t :: a1), a2. repeat split; [|exact Y].
    change (t :: a1) with ([t] ++ a1). constructor; [|exact X]. constructor. now constructor.
  - intros _. now apply f_opt_no.
Qed.
(** Skipping a word that the sequence does require (the other case is an error). *)
Lemma f_skip_kw_req B t k (f : option span -> prog B) l (R : B -> list tok -> Prop) : (forall s, reads (f (Some s)) (follow l R)) ->
  reads_at t (f None) (follow (W k :: l) R) -> reads_at t (bind (skip_keyword k) f) (follow (W k :: l) R).
Proof.
  intros H1 H2. apply ra_skip_kw.
  - intros E s t1. eapply ra_conseq; [apply H1|]. intros b ts (a1 & a2 & -> & X & Y). exists (t :: a1), a2. repeat split; [|exact Y].
    change (t :: a1) with ([t] ++ a1). constructor; [|exact X]. now constructor.
  - intros _. exact H2.
Qed.
Lemma f_opt_rule A t (p : prog A) n l Q : reads_at t p (follow (Opt (rule o n) :: l) Q) -> reads_at t p (follow (Opt (N_ n) :: l) Q).
Proof.
  intros H. eapply f_weaken; [exact H|]. intros ts D. apply d_cons_inv in D as (t1 & t2 & -> & X & Y). constructor; [|exact Y].
  inversion X; subst; constructor. now constructor.
Qed.
Lemma d_table A (tbl : list (string * A)) ks t k c : kw_assoc tbl t = Some (k, c) -> forallb (fun x => existsb (String.eqb x) ks) (map fst tbl) = true -> derives o (one_of ks) [t].
Proof.
  intros H F. apply kw_assoc_in in H as [H1 H2]. rewrite forallb_forall in F. specialize (F _ H1). apply existsb_exists in F as (x & X & E). apply String.eqb_eq in E as <-.
  eapply d_alt; [apply (in_map W); exact X|]. now constructor.
Qed.
Lemma f_table A B (tbl : list (string * A)) ks t k c (f : span -> prog B) l R : kw_assoc tbl t = Some (k, c) -> forallb (fun x => existsb (String.eqb x) ks) (map fst tbl) = true ->
  (forall s, reads (f s) (follow l R)) -> reads_at t (bind (consume_keyword k) f) (follow (one_of ks :: l) R).
Proof.
  intros H F K. eapply ra_bind; [apply ra_keyword'|]. intros s ts1 [-> _] t1. eapply ra_conseq; [apply K|]. intros b ts (a1 & a2 & -> & X & Y). exists ([t] ++ a1), a2. repeat split; [|exact Y].
  constructor; [|exact X]. eapply d_table; eauto.
Qed.
Lemma t_skip_kw S A t k (f : option span -> prog (S + A)) m : (forall s, reads (f (Some s)) (follow m inl_)) -> reads_at t (f None) (turn (Seq (W k :: m))) ->
  reads_at t (bind (skip_keyword k) f) (turn (Seq (W k :: m))).
Proof.
  intros H1 H2. apply ra_skip_kw; [|intros _; exact H2]. intros E s t1. eapply ra_conseq; [apply H1|]. intros [b|b] ts (a1 & a2 & -> & X & -> & Y); [|contradiction].
  cbn [turn]. rewrite app_nil_r. apply (d_cons o (W k) m [t] a1); [now constructor|exact X].
Qed.
Lemma t_skip_tok S A t w (f : option span -> prog (S + A)) m : (forall s, reads (f (Some s)) (follow m inl_)) -> reads_at t (f None) (turn (Seq (T w :: m))) ->
  reads_at t (bind (skip_token w) f) (turn (Seq (T w :: m))).
Proof.
  intros H1 H2. apply ra_skip_tok; [|intros _; exact H2]. intros -> s t1. eapply ra_conseq; [apply H1|]. intros [b|b] ts (a1 & a2 & -> & X & -> & Y); [|contradiction].
  cbn [turn]. rewrite app_nil_r. apply (d_cons o (T w) m [w] a1); [constructor|exact X].
Qed.
Lemma f_words B t ks (f : span -> prog B) l R : (forall s, reads (f s) (follow l R)) -> reads_at t (bind (consume_keywords ks) f) (follow (map W ks ++ l) R).
Proof.
  destruct ks as [|k ks]; [intros _; apply ra_panic|]. intros H. eapply ra_bind; [apply c_keywords|]. intros s ts1 X t1. eapply ra_conseq; [apply H|].
  intros b ts (a1 & a2 & -> & Y & Z). exists (ts1 ++ a1), a2. rewrite app_assoc. repeat split; [|exact Z]. now apply d_app'.
Qed.
Lemma f_words_last t ks : reads_at t (consume_keywords ks) (follow (map W ks) any).
Proof. destruct ks as [|k ks]; [apply ra_panic|]. eapply ra_conseq; [apply c_keywords|]. intros a ts X. exists ts, []. rewrite app_nil_r. now repeat split. Qed.
(** A loop whose iterations read an [a] and then a comma or end. *)
Definition sep {S A} : S + A -> list tok -> Prop := fun r ts => match r with inl _ => ts = [TComma] | inr _ => ts = [] end.
Definition sep_acc {S} : S * ctl -> list tok -> Prop := fun r ts => match snd r with Continue => ts = [TComma] | Break => ts = [] | Abort => False end.
Lemma c_items S A (body : S -> prog (S + A)) a : (forall s, reads (body s) (follow [a] sep)) -> forall n s, calls (loop n body s) (commas a).
Proof.
  intros H n s t. apply (ra_loop o _ _ _ (fun _ => opened a)); [now left|].
  intros s1 ts1 O t1. eapply ra_conseq; [apply H|]. intros [s2|x] ts2 (a1 & a2 & -> & X & ->); apply (proj2 (d_one _ _ _)) in X.
  - right. exists (ts1 ++ a1). split; [now rewrite app_assoc|]. now apply opened_close.
  - rewrite app_nil_r. now apply opened_close.
Qed.
Lemma c_items_acc S (body : S -> prog (S * ctl)) x e a : (forall s, reads (body s) (follow [a] sep_acc)) -> forall n s, calls (recovered_acc x e (loop_acc n body s)) (commas a).
Proof.
  intros H n s t. apply ra_recovered_acc. apply (ra_loop_acc o _ _ (fun _ => opened a)); [now left|].
  intros s1 ts1 O t1. eapply ra_conseq; [apply H|]. intros [s2 []] ts2 (a1 & a2 & -> & X & Y); apply (proj2 (d_one _ _ _)) in X; cbn [sep_acc snd fst] in *; [| |contradiction]; subst a2.
  - right. exists (ts1 ++ a1). split; [now rewrite app_assoc|]. now apply opened_close.
  - rewrite app_nil_r. now apply opened_close.
Qed.
Lemma s_skip B t w (f : option span -> prog B) (R : B -> list tok -> Prop) : (forall s, reads (f (Some s)) (fun b ts => R b (w :: ts))) -> reads_at t (f None) R ->
  reads_at t (bind (skip_token w) f) R.
Proof. intros H1 H2. apply ra_skip_tok; [intros ->; exact H1|intros _; exact H2]. Qed.
Lemma s_tok B t w (f : span -> prog B) (R : B -> list tok -> Prop) : (forall s, reads (f s) (fun b ts => R b (w :: ts))) -> reads_at t (bind (consume_token w) f) R.
Proof. intros H1. eapply ra_bind; [apply ra_token'|]. intros a ts [-> ->]. apply H1. Qed.
Lemma c_recovered A (d : A) x e p a : calls p a -> calls (recovered d x e p) a.
Proof. intros H t. apply ra_recovered, H. Qed.
Lemma c_map A B (p : prog A) (f : A -> B) a : calls p a -> calls (x <- p ;; Ret (f x)) a.
Proof. intros H t. eapply ra_bind; [apply H|]. intros x ts X t1. apply ra_ret. now rewrite app_nil_r. Qed.
(** Strings, names *)
Lemma string_class t v : string_token t = Some v -> in_class o CString t = true.
Proof. destruct t; cbn; try discriminate; auto. Qed.
Lemma c_string n : calls (consume_string n) strings.
Proof.
  apply f_calls. intros t. apply f_rule. cbn [rule]. apply f_seq. cbn [app]. unfold consume_string. apply ra_token. destruct (string_token t) as [v|] eqn:E; [|apply ra_expected_failure'].
  apply f_consume; [constructor; eapply string_class; eauto|]. intros s t1. apply f_last, c_loop. intros ab t2. apply ra_token. destruct (string_token t2) as [v2|] eqn:E2; [|apply t_end].
  apply t_more, f_consume; [constructor; eapply string_class; eauto|]. intros s2 t3. now apply f_ret.
Qed.
Lemma c_qualified n : calls (parse_qualified_name n) qualified.
Proof.
  apply f_calls. intros t. apply f_rule. cbn [rule]. apply f_seq. cbn [app]. unfold parse_qualified_name. apply f_cons; [apply c_name|]. intros i t1.
  apply f_last, c_loop. intros q t2. apply ra_skip_tok.
  - intros -> s t3. eapply ra_bind; [apply c_name|]. intros i2 ts1 H t4. apply ra_ret. cbn [turn]. rewrite app_nil_r. change (TPeriod :: ts1) with ([TPeriod] ++ ts1).
    constructor; [constructor|]. now apply (proj1 (d_one _ _ _)).
  - intros _. apply t_end.
Qed.
(** Options *)
Lemma c_opt_where r k a : calls (r_expr r false) a -> calls (opt_where r k) (Opt (Seq [W k; a])).
Proof.
  intros H. apply f_calls. intros t. unfold opt_where. apply f_skip_kw; [|now apply f_ret]. intros s t1. cbn [app]. apply f_cons; [exact H|]. intros e t2. now apply f_ret.
Qed.
End Rules.

(** ** The tactic *)
Inductive key := KW_ (k : string) | KT (t : tok) | KC (c : cls).
Definition same_class (a b : cls) : bool :=
  match a, b with
  | CName, CName | CColumn, CColumn | CCallable, CCallable | CWord, CWord | CInt _, CInt _ | CFloat, CFloat | CString, CString | CArgument, CArgument | CAny, CAny => true
  | _, _ => false end.
Fixpoint nullable (n : nat) (o : options) (a : g) : bool :=
  match n with O => false | S n =>
  match a with
  | N_ m => nullable n o (rule o m) | Seq l => forallb (nullable n o) l | Alt l => existsb (nullable n o) l | Opt _ | Star _ => true | _ => false end end.
Fixpoint first_is (n : nat) (o : options) (k : key) (a : g) : bool :=
  match n with O => false | S n =>
  match a with
  | W w => match k with KW_ k => String.eqb w k | _ => false end
  | T t => match k with KT k => tok_eqb t k | _ => false end
  | C c => match k with KC k => same_class c k | _ => false end
  | N_ m => first_is n o k (rule o m)
  | Seq l => (fix go l := match l with [] => false | a :: l => first_is n o k a || (nullable n o a && go l) end) l
  | Alt l => existsb (first_is n o k) l
  | Opt a | Star a => first_is n o k a
  end end.
Definition opts_of (d : dialect) : options := mkOptions d ArgNone false false true.
Definition begins (k : key) (f : options -> g) : bool :=
  first_is 12 (opts_of PostgreSQL) k (f (opts_of PostgreSQL)) || first_is 12 (opts_of MariaDB) k (f (opts_of MariaDB)).
Fixpoint position (p : g -> bool) (l : list g) : nat := match l with [] => 0 | a :: l => if p a then 0 else S (position p l) end.
Definition index_of (k : key) (f : options -> list g) : nat :=
  Nat.min (position (first_is 12 (opts_of PostgreSQL) k) (f (opts_of PostgreSQL))) (position (first_is 12 (opts_of MariaDB) k) (f (opts_of MariaDB))).

Create HintDb reads.
#[export] Hint Transparent expr_ name names qualified statement strings where_ : reads.
#[export] Hint Resolve c_keyword c_keywords c_token c_name c_int c_float c_string c_qualified c_skip_kw c_skip_tok c_sep_list c_sep_list_recovered
  c_recovered_list c_recovered_list2 c_opt_where c_recovered c_map : reads.

Ltac first_key tbl := lazymatch eval compute in (map fst tbl) with ?k :: _ => constr:(KW_ k) end.
Ltac prim_key t p :=
  lazymatch p with
  | bind ?q _ => prim_key t q
  | consume_keyword ?k => match goal with H : kw_assoc ?tbl t = Some (k, _) |- _ => first_key tbl | _ => constr:(KW_ k) end
  | consume => match goal with H : is_kw t ?k = true |- _ => constr:(KW_ k) | H : tok_eqb t ?w = true |- _ => constr:(KT w)
               | H : kw_assoc ?tbl t = Some _ |- _ => first_key tbl
               | _ => lazymatch t with TIdent _ _ => constr:(KC CWord) end end
  | consume_keywords (?k :: _) => constr:(KW_ k)
  | consume_token ?w => constr:(KT w)
  | skip_token ?w => constr:(KT w)
  | skip_keyword ?k => constr:(KW_ k)
  | consume_plain_identifier => constr:(KC CName)
  | parse_qualified_name _ => constr:(KC CName)
  | consume_string _ => constr:(KC CString)
  | consume_int _ => constr:(KC (CInt 0))
  | consume_float => constr:(KC CFloat)
  | sep_list _ ?q => prim_key t q
  | recovered _ _ _ ?q => prim_key t q
  | _ => match goal with H : is_kw t ?k = true |- _ => constr:(KW_ k) | H : tok_eqb t ?w = true |- _ => constr:(KT w) end
  end.
Ltac abstract_o o a := lazymatch eval pattern o in a with ?f _ => constr:(f) | _ => constr:(fun _ : options => a) end.
(** Replace the head of the sequence. *)
Ltac new_head b :=
  lazymatch goal with |- reads_at ?o ?t ?p (follow _ (?a :: ?l) ?Q) => change (reads_at o t p (follow o (b :: l) Q)) end.
Ltac red_head a :=
  lazymatch a with
  | N_ ?n => apply f_rule; lazymatch goal with |- reads_at ?o _ _ (follow _ (rule _ ?n :: _) _) => let x := eval cbv beta iota zeta delta [rule] in (rule o n) in new_head x end
  | Opt (N_ ?n) => apply f_opt_rule; lazymatch goal with |- reads_at ?o _ _ (follow _ (Opt (rule _ ?n) :: _) _) => let x := eval cbv beta iota zeta delta [rule] in (rule o n) in new_head (Opt x) end
  | Opt (if ?b then _ else _) => let H := fresh "D" in first [match goal with E : b = _ |- _ => rewrite E; cbv iota end | destruct b eqn:H]
  | if ?b then _ else _ => let H := fresh "D" in first [match goal with E : b = _ |- _ => rewrite E; cbv iota end | destruct b eqn:H]
  | Opt ?x => let x' := eval red in x in let x'' := eval cbn [map app] in x' in new_head (Opt x'')
  | _ => let x' := eval red in a in let x'' := eval cbn [map app] in x' in new_head x''
  end.
Ltac settle := repeat match goal with |- context [match ?x with _ => _ end] => is_var x; destruct x end; solve [eexists; reflexivity | eexists; eexists; reflexivity].
Ltac call := first [ eapply f_silent; [solve [auto 5 with reads nocore]|intros ?; intro] | eapply f_cons; [solve [auto 5 with reads nocore]|intros ?; intro] | apply f_last; solve [auto 5 with reads nocore] ].
Ltac eat :=
  lazymatch goal with
  | |- reads_at ?o ?t ?p (follow _ [] _) => lazymatch p with
      | Ret _ => apply f_ret; solve [reflexivity | split; reflexivity | split; [reflexivity|exact I] | split; [reflexivity|settle]]
      | bind (skip_token _) _ => apply f_end, s_skip; [intros ?; intro|]
      | bind (consume_token _) _ => apply f_end, s_tok; intros ?; intro
      | bind consume _ => apply f_end, ra_consume; intros ?; intro
      end
  | |- reads_at ?o ?t ?p (fun b ts => follow _ ?l ?R b ([] ++ ts)) => change (reads_at o t p (follow o l R))
  | |- reads_at ?o ?t ?p (fun b ts => follow _ ?l ?R b ts) => change (reads_at o t p (follow o l R))
  | |- reads_at ?o ?t (Ret _) (fun _ _ => _) => apply ra_ret; solve [reflexivity | split; reflexivity | split; [reflexivity|exact I] | eassumption]
  | |- reads_at ?o ?t (Ret _) sep => apply ra_ret; reflexivity
  | |- reads_at ?o ?t (Ret _) sep_acc => apply ra_ret; reflexivity
  | |- reads_at ?o ?t ?p (follow _ (?a :: ?l) ?Q) =>
    first [ call |
    lazymatch a with
    | Seq ?m => apply f_seq; cbn [app]
    | W ?k =>
        lazymatch p with
        | bind (consume_keywords ?ks) _ => let l' := eval cbn [skipn length] in (skipn (length ks) (a :: l)) in apply (f_words o _ t ks _ l'); intros ?; intro
        | consume_keywords ?ks => apply (f_words_last o t ks)
        | bind (skip_keyword k) _ => apply f_skip_kw_req; [intros ?; intro|]
        | _ => apply f_consume; [apply d_word; assumption|intros ?; intro]
        end
    | C ?c => apply f_consume; [apply d_class; solve [assumption | reflexivity]|intros ?; intro]
    | T ?w => apply f_consume; [match goal with H : tok_eqb t w = true |- _ => apply tok_eqb_eq in H; rewrite H; apply d_token end|intros ?; intro]
    | Alt ?m => first [ let k := prim_key t p in let f := abstract_o o m in let i := eval vm_compute in (index_of k f) in eapply (f_alt _ _ _ _ i); [reflexivity|]
                      | eapply (f_alt _ _ _ _ 0); [reflexivity|]; call | eapply (f_alt _ _ _ _ 1); [reflexivity|]; call
                      | eapply (f_alt _ _ _ _ 2); [reflexivity|]; call | eapply (f_alt _ _ _ _ 3); [reflexivity|]; call ]
    | one_of ?ks =>
        first [ eapply f_table; [eassumption|reflexivity|intros ?; intro]
              | apply f_consume; [eapply d_table; [eassumption|reflexivity]|intros ?; intro]
              | red_head a ]
    | Opt ?x =>
        lazymatch p with
        | Ret _ => apply f_opt_no
        | bind (skip_keyword ?k) _ =>
            let f := abstract_o o x in let b := eval vm_compute in (begins (KW_ k) f) in
            lazymatch b with
            | false => apply f_opt_no
            | true => lazymatch x with
                      | W _ => apply f_skip_kw1; [intros ?; intro|]
                      | Seq (W _ :: _) => apply f_skip_kw; [intros ?; intro; cbn [app]|]
                      | _ => red_head a end end
        | bind (skip_token ?k) _ =>
            let f := abstract_o o x in let b := eval vm_compute in (begins (KT k) f) in
            lazymatch b with
            | false => apply f_opt_no
            | true => lazymatch x with
                      | Seq (T _ :: _) => apply f_skip_tok; [intros ?; intro; cbn [app]|]
                      | _ => red_head a end end
        | _ => first [ apply f_opt_no; call | apply f_opt_yes; call |
               let k := prim_key t p in let f := abstract_o o x in let b := eval vm_compute in (begins k f) in
               lazymatch b with true => apply f_opt_yes | false => apply f_opt_no end ]
        end
    | commas _ =>
        lazymatch p with
        | bind (loop _ _ _) _ => eapply f_cons; [apply c_items; intros ?; intro|intros ?; intro]
        | loop _ _ _ => apply f_last, c_items; intros ?; intro
        | bind (recovered_acc _ _ (loop_acc _ _ _)) _ => eapply f_cons; [apply c_items_acc; intros ?; intro|intros ?; intro]
        | bind (sep_list _ _) _ => eapply f_cons; [apply c_sep_list, f_calls; intro|intros ?; intro]
        | bind (sep_list_recovered _ _ _) _ => eapply f_cons; [apply c_sep_list_recovered, f_calls; intro|intros ?; intro]
        | bind (recovered_list _ _) _ => eapply f_cons; [apply c_recovered_list, f_calls; intro|intros ?; intro]
        | recovered_acc _ _ (loop_acc _ _ _) => apply f_last, c_items_acc; intros ?; intro
        | _ => red_head a
        end
    | Star ?x =>
        lazymatch p with
        | bind (loop _ _ _) _ => eapply f_cons; [apply c_loop; intros ?; intro|intros ?; intro]
        | loop _ _ _ => apply f_last, c_loop; intros ?; intro
        | bind (recovered_acc _ _ (loop_acc _ _ _)) _ => eapply f_cons; [apply c_loop_acc; intros ?; intro|intros ?; intro]
        | recovered_acc _ _ (loop_acc _ _ _) => apply f_last, c_loop_acc; intros ?; intro
        | Ret _ => apply f_star_no
        | _ => first [ apply f_star_no; call |
               let k := prim_key t p in let f := abstract_o o x in let b := eval vm_compute in (begins k f) in
               lazymatch b with true => apply f_star_yes | false => apply f_star_no end ]
        end
    | N_ _ => lazymatch p with bind (recovered _ _ _ _) _ => fail | bind (r_stmt _) _ => fail | _ => red_head a end
    | _ => red_head a
    end ]
  | |- reads_at ?o ?t (Ret (inr _)) (turn _ _) => apply t_end
  | |- reads_at ?o ?t (Ret (_, Break)) (turn_acc _ _) => apply ta_end
  | |- reads_at ?o ?t (Ret None) (maybe _ _) => apply m_end
  | |- reads_at ?o ?t (bind (skip_keyword _) _) (turn _ (Seq (W _ :: _))) => apply t_skip_kw; [intros ?; intro|]
  | |- reads_at ?o ?t (bind (skip_token _) _) (turn _ (Seq (T _ :: _))) => apply t_skip_tok; [intros ?; intro|]
  | |- reads_at ?o ?t ?p (turn _ _) => first [eapply m_loop; [solve [auto 5 with reads nocore]|intros ?; eexists; reflexivity|eexists; reflexivity]
      | eapply t_maybe; [solve [auto 5 with reads nocore]|intros ?; intro|eexists; reflexivity] | apply t_more]
  | |- reads_at ?o ?t ?p (turn_acc _ _) => apply ta_more
  | |- reads_at ?o ?t ?p (maybe _ _) => apply m_more
  end.
Ltac split_bools :=
  repeat match goal with
  | H : _ || _ = true |- _ => apply orb_prop in H as [H|H]
  | H : _ && _ = true |- _ => apply andb_prop in H as [? H]
  | H : negb _ = true |- _ => apply negb_true_iff in H
  | H : negb _ = false |- _ => apply negb_false_iff in H
  end.
Ltac simp_bool b :=
  match goal with
  | E : ?c = ?v |- _ => lazymatch type of c with bool => lazymatch b with context [c] => rewrite E; cbn [is_some negb andb orb] end end
  | _ => lazymatch b with context [is_some] => progress cbn [is_some negb andb orb] end
  end.
Ltac split_on b := let H := fresh "B" in
  first [ match goal with E : b = _ |- _ => rewrite E end | simp_bool b | destruct b eqn:H; split_bools; try match goal with H1 : ?b = true, H2 : ?b = false |- _ => rewrite H1 in H2; discriminate H2 | H1 : true = false |- _ => discriminate H1 | H1 : false = true |- _ => discriminate H1 end ].
Ltac ctl1 :=
  lazymatch goal with
  | |- reads _ _ _ => intro
  | |- reads_at ?o ?t ?p ?R =>
    lazymatch p with
    | bind (bind _ _) _ => apply ra_assoc
    | bind (Ret ?a) ?k => change (reads_at o t (k a) R)
    | bind token _ => apply ra_token
    | bind cur_span _ => apply ra_span; intros ?
    | bind dialect_ _ => apply ra_dialect
    | bind peek _ => apply ra_peek; intros ?
    | bind (perf OArguments) _ => apply ra_arguments
    | bind (perf OListHack) _ => apply ra_listhack
    | bind (perf _) _ => apply ra_quiet; [reflexivity|intros ?]
    | bind (err _ _) _ => apply ra_err
    | bind (err_frags _ _ _) _ => apply ra_error
    | bind (err_at _ _) _ => apply ra_err_at
    | bind (expected_error _) _ => apply ra_expected_error
    | bind (expected_failure _) _ => apply ra_expected_failure
    | expected_failure _ => apply ra_expected_failure'
    | bind (err_here _) _ => apply ra_err_here
    | err_here _ => apply ra_err_here'
    | ice _ => apply ra_err_here'
    | todo _ => apply ra_err_here'
    | bind (ice _) _ => apply ra_err_here
    | Panic _ => apply ra_panic
    | bind (Panic _) _ => apply ra_panic
    | expect (Some ?x) _ => change (reads_at o t (Ret x) R)
    | expect None _ => apply ra_panic
    | bind (expect (Some ?x) _) ?k => change (reads_at o t (k x) R)
    | bind (expect None _) _ => apply ra_panic
    | bind (if ?b then _ else _) _ => split_on b
    | if ?b then _ else _ => split_on b
    | bind (match ?x with _ => _ end) _ => destruct x eqn:?
    | match ?x with _ => _ end => destruct x eqn:?
    end
  end.
Ltac take n := eapply (f_take _ _ _ _ _ _ n); [first [apply ra_recovered|idtac]; cbn [firstn]|cbn [skipn]; intros ?; intro].
Ltac walk1 := cbv beta iota zeta; first [ctl1 | eat].
Ltac walk := repeat walk1.
(** This way there is an error. *)
Ltac doom := apply ra_doomed; repeat (cbv beta iota zeta; first [ctl1 | eapply doom_bind; [solve [eauto 5 with reads nocore]|intros ?; intro]]).
(** [p] reads the nonterminal [n]: unfold the rule and follow it. *)
Ltac rule_of := apply f_calls; intro; try match goal with |- reads_at _ _ _ (follow _ [N_ ?n] _) => red_head (N_ n) end.
Ltac alt i := eapply (f_alt _ _ _ _ i); [reflexivity|].
