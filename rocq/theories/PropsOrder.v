(** Where the statements of a script come from: disjoint stretches of the source, in order. *)
From Verif Require Import PropsDialect.
Local Open Scope string_scope.
Local Open Scope list_scope.

(** ** Programs, without the environment *)
Definition leads {T} (p : prog T) (Q : T -> gst -> Prop) (F : gst -> Prop) (S : gst) : Prop :=
  match rung p S with GOk a S' => Q a S' | GErr S' => F S' | _ => True end.
Lemma leads_bind T U (p : prog T) (k : T -> prog U) Q F S :
  leads p (fun a S' => leads (k a) Q F S') F S -> leads (bind p k) Q F S.
Proof. unfold leads. rewrite rung_bind. destruct (rung p S); auto. Qed.
Lemma leads_try T U (p : prog T) (k : option T -> prog U) Q F S :
  leads p (fun a S' => leads (k (Some a)) Q F S') (fun S' => leads (k None) Q F S') S -> leads (Try p k) Q F S.
Proof. unfold leads. cbn [rung]. destruct (rung p S); auto. Qed.
Lemma leads_conseq T (p : prog T) (Q Q' : T -> gst -> Prop) (F F' : gst -> Prop) S :
  leads p Q F S -> (forall a S', Q a S' -> Q' a S') -> (forall S', F S' -> F' S') -> leads p Q' F' S.
Proof. unfold leads. destruct (rung p S); auto. Qed.
Lemma leads_moved T (p : prog T) S : leads p (fun _ S' => moved (g_st S) (g_st S')) (fun S' => moved (g_st S) (g_st S')) S.
Proof. unfold leads. pose proof (run_moved _ p (g_st S)) as H. rewrite rung_run in H. destruct (rung p S); auto. Qed.
Lemma leads_rung T (p : prog T) S (Q : T -> gst -> Prop) (F : gst -> Prop) :
  (forall a S', rung p S = GOk a S' -> Q a S') -> (forall S', rung p S = GErr S' -> F S') -> leads p Q F S.
Proof. unfold leads. destruct (rung p S); auto. Qed.

(** The current token starts after the one of an earlier state. *)
Definition past (st st' : pst) : Prop := lexical st -> lexical st' /\ snd (s_span st) <= fst (s_span st').
Lemma past_moved a b c : past a b -> moved b c -> past a c.
Proof. intros H1 H2 L. destruct (H1 L) as [L' P]. destruct (H2 L') as (L2 & P2 & _). split; [exact L2|]. unfold span in *. lia. Qed.
Lemma moved_past a b c : moved a b -> past b c -> past a c.
Proof. intros H1 H2 L. destruct (H1 L) as (L' & _ & P). destruct (H2 L') as [L2 P2]. split; [exact L2|]. unfold span in *. lia. Qed.
Lemma next_past st st' : p_next st = XOk tt st' -> past st st'.
Proof.
  intros E L. split; [exact (proj1 (next_moved _ _ E L))|]. unfold p_next in E. destruct L as (W & L1 & L2). destruct (s_peek st) as [[t s]|].
  - injection E as <-. cbn. apply L2.
  - destruct (next_token (s_lex st)) as [[t s] l|] eqn:Ek; [|discriminate]. injection E as <-. destruct (lex_moves _ _ _ _ W Ek) as (_ & P & _). cbn. unfold span in *. lia.
Qed.
Lemma leads_next F S : leads next (fun _ S' => past (g_st S) (g_st S')) F S.
Proof. unfold leads, next, perf. cbn [rung exec]. destruct (p_next (g_st S)) as [[] st'| |] eqn:E; auto. cbn [rung g_st]. now apply next_past. Qed.
Lemma leads_consume F S : leads consume (fun _ S' => past (g_st S) (g_st S')) F S.
Proof.
  unfold consume. apply leads_bind. unfold cur_span, perf at 1. unfold leads at 1. cbn [rung exec].
  apply leads_bind. eapply leads_conseq; [apply leads_next| |intros ? H; exact H]. intros a S' H. unfold leads. cbn [rung]. destruct S. exact H.
Qed.
Lemma leads_get X T (o : op X) (x : gst -> X) (k : X -> prog T) Q F S :
  (forall st log, exec o st = XOk (x (mkG st log)) st) -> (forall st log, log_step o (mkG st log) = log) ->
  leads (k (x S)) Q F S -> leads (bind (perf o) k) Q F S.
Proof. intros H L. unfold leads, perf. cbn [bind rung]. destruct S as [st log]. cbn [g_st]. rewrite (H st log), L. auto. Qed.
Lemma leads_token T (k : tok -> prog T) Q F S : leads (k (tk S)) Q F S -> leads (bind token k) Q F S.
Proof. intros H. unfold leads in *. rewrite rung_bind. destruct S. exact H. Qed.
Lemma leads_delim T (k : tok -> prog T) Q F S : leads (k (s_delim (g_st S))) Q F S -> leads (bind (perf ODelim) k) Q F S.
Proof. intros H. unfold leads in *. rewrite rung_bind. destruct S. exact H. Qed.
Lemma leads_ret T (a : T) (Q : T -> gst -> Prop) F S : Q a S -> leads (Ret a) Q F S.
Proof. intros H. exact H. Qed.
Lemma leads_recover n F : forall S,
  leads (recover_statement n) (fun _ S' => past (g_st S) (g_st S') /\ s_peek (g_st S') = None) F S.
Proof.
  unfold recover_statement. induction n as [|n IH]; intros S; [exact I|]. cbn [loop]. apply leads_bind, leads_bind.
  assert (N : leads next (fun _ S' => past (g_st S) (g_st S') /\ s_peek (g_st S') = None) F S).
  { pose proof (leads_next F S) as H. unfold leads, next, perf in *. cbn [rung exec] in *. destruct (p_next (g_st S)) as [[] st'| |] eqn:E; auto.
    cbn [rung g_st] in *. split; [exact H|]. unfold p_next in E. destruct (s_peek (g_st S)) as [[t s]|]; [injection E as <-; reflexivity|].
    destruct (next_token _) as [[t s] l|]; [injection E as <-; reflexivity|discriminate]. }
  eapply leads_conseq; [exact N| |auto]. intros _ S1 [P1 P2]. apply leads_token, leads_delim.
  destruct (tok_eqb _ _); [apply leads_ret, leads_ret; now split|]. destruct (tok_eqb _ _); [apply leads_ret, leads_ret; now split|].
  apply leads_ret. eapply leads_conseq; [apply IH| |auto]. intros b S2 [P3 P4]. split; [|exact P4]. eapply past_moved; [exact P1|].
  pose proof (leads_moved _ (loop n (fun _ : unit => next;;; t <- token;; d <- perf ODelim;;
    (if tok_eqb t d then Ret (inr false) else if tok_eqb t TEof then Ret (inr true) else Ret (inl tt))) tt) S1) as M.
  intros L. destruct (P3 L) as [L2 P5]. split; [exact L2|]. destruct L as (_ & Lx & _). destruct L2 as (_ & Ly & _). unfold span in *. split; lia.
Qed.
Lemma stdin_past S : s_peek (g_st S) = None ->
  leads (perf OStdin) (fun x S' => lexical (g_st S) -> lexical (g_st S') /\ snd (sp S) <= fst (snd x) /\ fst (snd x) <= snd (snd x) /\ snd (snd x) <= fst (sp S')) any S.
Proof.
  intros Hp. unfold leads, perf. cbn [rung exec]. destruct (p_stdin (g_st S)) as [[d s] st'| |] eqn:E; auto. cbn [rung g_st snd]. intros L.
  split; [exact (proj1 (exec_moved _ OStdin _ _ _ E L))|]. unfold p_stdin in E. destruct L as (W & L1 & L2). rewrite Hp in L2.
  destruct (read_from_stdin_spec _ W) as (d' & s' & l' & E' & A). rewrite E' in E. pose proof (stdin_at_range _ _ _ _ W A) as Rg.
  apply stdin_at_adv in A as (w & A). pose proof (adv_lwf _ _ _ W A) as W'.
  unfold p_next in E. cbn [s_peek s_lex] in E. rewrite Hp in E. destruct (next_token l') as [[t2 s2] l2|] eqn:E2; [|discriminate].
  injection E as -> -> <-. destruct (lex_moves _ _ _ _ W' E2) as (_ & P & _). unfold sp. cbn. unfold span in *. lia.
Qed.

(** ** Specification *)
(** [s] is in the stretch from [a] to [b]; if there were Errors ([f] are the issues), it may also start at 0. *)
Definition within (f : list issue) (a b : nat) (s : span) : Prop :=
  snd s <= b /\ (a <= fst s \/ (fst s = 0 /\ errors f <> [])).
(** The statements come from disjoint stretches between [p] and [q], in order. *)
Inductive spread (f : list issue) : nat -> list stmt -> nat -> Prop :=
| sd_nil p q : p <= q -> spread f p [] q
| sd_cons p a b x l q : p <= a -> a <= b -> Forall (within f a b) (spans_in x) -> spread f b l q -> spread f p (x :: l) q.
Lemma spread_one f p a b x q : p <= a -> a <= b -> b <= q -> Forall (within f a b) (spans_in x) -> spread f p [x] q.
Proof. intros. eapply sd_cons; eauto. now constructor. Qed.
Lemma spread_app f l : forall p q l' r, spread f p l q -> spread f q l' r -> spread f p (l ++ l') r.
Proof.
  induction l as [|x l IH]; intros p q l' r H1 H2; inversion H1; subst; cbn [app].
  - inversion H2; subst; [constructor; lia|]. eapply sd_cons; [|eassumption..]. lia.
  - eapply sd_cons; eauto.
Qed.
Lemma spread_le f p l q : spread f p l q -> p <= q.
Proof. induction 1; lia. Qed.

Section Spread.
Variables (sr : text) (o : options) (f : list issue) (n : nat).
Let V : env := env0 sr o.
Let Vw (a b : nat) : env := env_of (Some f) a b sr o _ _ _ (weights0 sr).
Lemma within_ok a b x : @ok (Vw a b) (@nb (Vw a b)) x -> Forall (within f a b) (match x with ASpan s | AIdent _ s | AText _ s | AArg _ s | AInvalid s | ALeaf _ s => [s] | _ => [] end).
Proof.
  assert (Q : forall s, @inside (Vw a b) s -> within f a b s).
  { intros s [H1 H2]. cbn in H1, H2. split; [exact H1|]. destruct H2 as [H2|[H2 H3]]; [now left|right]. split; [exact H2|].
    unfold errors, nerrs in *. destruct (filter is_error f); [cbn in H3; lia|discriminate]. }
  destruct x; cbn [ok]; intros H; auto; (constructor; [|constructor]; apply Q).
  all: try (destruct H as (w & [_ H] & _); exact H). all: try apply H.
Qed.
Lemma window S1 v S2 : @wf V S1 -> m S1 < n -> rung (r_stmt (knot n)) S1 = GOk (Some v) S2 -> (exists r, f = s_issues (g_st S2) ++ r) ->
  Forall (within f (fst (sp S1)) (snd (sp S2))) (spans_in v).
Proof.
  intros Hw Hm R Fi. pose proof (leads_moved _ (r_stmt (knot n)) S1) as Mv. unfold leads in Mv. rewrite R in Mv. destruct (Mv (wf_lexical _ _ Hw)) as (L2 & P1 & P2).
  set (a := fst (sp S1)). set (b := snd (sp S2)).
  assert (Hw' : @wf (Vw a b) S1).
  { destruct Hw as [w1 w2 w3 w4 w5 w6 w7 w8 w9 w10 w11]. constructor; auto.
    - destruct w5 as (W1 & w & [W2 W3] & W4). split; [exact W1|]. exists w. split; [|exact W4]. split; [exact W2|]. split; [exact P2|]. left. cbn. unfold a. lia.
    - cbn. unfold a. lia. }
  pose proof (@k_stmt (Vw a b) (knot n) (knot_ok n) S1 Hw') as X. rewrite SafeTop.r_n_knot in X. specialize (X ltac:(lia)). unfold wp in X. rewrite R in X.
  destruct X as (_ & _ & _ & _ & X).
  { split; [exact Fi|]. intros _. cbn. unfold b. lia. }
  change (atoms (Some v)) with (atoms v) in X. unfold spans_in. apply Forall_flat_map. rewrite Forall_forall in X. apply Forall_forall. intros x Hx. now apply within_ok, X.
Qed.
Definition pre (S : gst) : Prop := exists r, f = s_issues (g_st S) ++ r.
Lemma leads_pre T (p : prog T) (Q : T -> gst -> Prop) S :
  (pre S -> leads p (fun a S' => pre S' -> Q a S') any S) -> leads p (fun a S' => pre S' -> Q a S') any S.
Proof.
  intros H. pose proof (run_grown _ p (g_st S)) as G. rewrite rung_run in G. unfold leads in *. destruct (rung p S) as [a S'|S'| |]; cbn [forget] in G; auto; [|exact I].
  intros P. apply H; [|exact P]. destruct P as [r P]. destruct G as (_ & _ & _ & ni & G & _). rewrite G, <- app_assoc in P. now exists (ni ++ r).
Qed.
Lemma step_spread ans S x S' : @wf V S -> dlive S -> m S < n -> rung (parse_statements_step (knot n) ans) S = GOk x S' -> pre S' ->
  exists l, sumv x = ans ++ l /\ match x with inl _ => spread f (fst (sp S)) l (fst (sp S')) | inr _ => exists q, spread f (fst (sp S)) l q end.
Proof.
  intros Hw Hd Hm. set (G := fun (x : list stmt + list stmt) S' => pre S' -> exists l, sumv x = ans ++ l /\
    match x with inl _ => spread f (fst (sp S)) l (fst (sp S')) | inr _ => exists q, spread f (fst (sp S)) l q end).
  assert (X : leads (parse_statements_step (knot n) ans) G any S).
  2: { unfold leads in X. intros R. rewrite R in X. exact X. }
  unfold parse_statements_step. apply leads_bind.
  assert (W1 : leads (skip_delimiters (r_n (knot n))) (fun b S1 => @cx V S S1) any S).
  { pose proof (@skip_delimiters_wp V (r_n (knot n)) S Hw Hd) as Y. rewrite SafeTop.r_n_knot in *. specialize (Y ltac:(lia)). unfold wp in Y. unfold leads.
    destruct (rung _ S); auto. now destruct (Y I). exact I. }
  eapply leads_conseq; [exact W1| |auto]. clear W1. intros eof S1 C1. pose proof (c_m _ _ C1) as M1. pose proof (c_pos _ _ C1) as P1.
  destruct eof.
  { apply leads_ret. intros _. exists []. rewrite app_nil_r. split; [reflexivity|]. exists (fst (sp S)). now constructor. }
  apply leads_bind.
  assert (W2 : leads (skip_keyword "DELIMITER") (fun k S2 => moved (g_st S1) (g_st S2) /\ (k = None -> S2 = S1)) any S1).
  { pose proof (leads_moved _ (skip_keyword "DELIMITER") S1) as Y. pose proof (@skip_keyword_gap V "DELIMITER" S1 (c_wf _ _ C1)) as Z. unfold wp in Z. unfold leads in *.
    destruct (rung _ S1) as [k S2|S2| |]; auto; [|exact I]. split; [exact Y|]. intros ->. now destruct (Z I). }
  pose proof (wf_lexical _ _ (c_wf _ _ C1)) as L1.
  eapply leads_conseq; [exact W2| |auto]. clear W2. intros [k|] S2 [Mv Eq].
  { match goal with |- leads ?p _ _ _ => pose proof (leads_moved _ p S2) as Y; assert (Z : leads p (fun x _ => x = inl ans) any S2) end.
    { apply leads_token. apply leads_bind. unfold leads. destruct (rung _ S2) as [u S3|S3| |]; try exact I. apply leads_bind. unfold leads. destruct (rung _ S3) as [u' S4|S4| |]; try exact I.
      apply leads_bind. unfold leads. destruct (rung _ S4) as [u2 S5|S5| |]; try exact I. reflexivity. }
    unfold leads in *. destruct (rung _ S2) as [y S3|S3| |]; auto. subst y. intros _. exists []. rewrite app_nil_r. split; [reflexivity|]. constructor.
    destruct (Mv L1) as (L2 & Q1 & _). destruct (Y L2) as (_ & Q2 & _). unfold sp in *. lia. }
  rewrite (Eq eq_refl) in *. clear Eq S2 Mv. apply leads_bind, leads_try.
  assert (T : forall (s : option stmt) S2, moved (g_st S1) (g_st S2) -> (pre S2 -> forall v, s = Some v -> Forall (within f (fst (sp S1)) (snd (sp S2))) (spans_in v)) ->
     (match s with Some v => reads_from_stdin v = true -> s_peek (g_st S2) = None | None => True end) ->
     leads (let err := negb (is_some s) in
      let from_stdin := match s with Some v => reads_from_stdin v | None => false end in
      let ans := match s with Some v => ans ++ [v] | None => ans end in
      t <- token ;;
      d <- perf ODelim ;;
      eof <- (if negb (tok_eqb t d) then
                (if negb err then expected_error (tok_name d) else Ret tt) ;;;
                recover_statement (r_n (knot n))
              else Ret false) ;;
      if eof : bool then Ret (inr ans)
      else if from_stdin then
        '(x, sp) <- perf OStdin ;;
        Ret (inl (ans ++ [SStdin (mkStdin x sp)]))
      else
        d <- perf ODelim ;;
        Try (consume_token d) (fun x =>
          match x with Some _ => Ret (inl ans) | None => Panic PDelimiter end)) G any S2).
  { intros s S2 Mv Sp Cp. apply leads_pre. intros Pr. specialize (Sp Pr). cbv zeta. destruct (Mv L1) as (L2 & Q1 & Q2).
    set (lst := match s with Some v => [v] | None => [] end).
    assert (E : match s with Some v => ans ++ [v] | None => ans end = ans ++ lst) by (unfold lst; destruct s; [reflexivity|now rewrite app_nil_r]). rewrite E.
    assert (Sl : forall q, snd (sp S2) <= q -> spread f (fst (sp S)) lst q).
    { intros q Hq. assert (Fs : fst (sp S1) <= snd (sp S2)) by (destruct L1 as (_ & Lx & _); unfold sp in *; lia). unfold lst. destruct s as [v|]; [|constructor; lia].
      eapply spread_one; [exact P1|exact Fs|exact Hq|]. now apply Sp. }
    apply leads_token, leads_delim, leads_bind.
    assert (W : leads (if negb (tok_eqb (tk S2) (s_delim (g_st S2))) then
                (if negb (negb (is_some s)) then expected_error (tok_name (s_delim (g_st S2))) else Ret tt) ;;;
                recover_statement (r_n (knot n)) else Ret false) (fun b S3 => S3 = S2 \/ past (g_st S2) (g_st S3) /\ s_peek (g_st S3) = None) any S2).
    { destruct (negb (tok_eqb _ _)); [|apply leads_ret; now left]. apply leads_bind.
      match goal with |- leads ?p _ _ _ => pose proof (leads_moved _ p S2) as Y end. unfold leads at 1. unfold leads in Y. destruct (rung _ S2) as [u S3|S3| |]; try exact I.
      eapply leads_conseq; [apply (leads_recover _ any)| |auto]. intros b S4 [Z1 Z2]. right. split; [|exact Z2]. eapply moved_past; eauto. }
    eapply leads_conseq; [exact W| |auto]. clear W. intros eof S3 E3.
    assert (Mv3 : lexical (g_st S3) /\ snd (sp S2) <= snd (sp S3)).
    { destruct E3 as [->|[E3 _]]; [split; [exact L2|lia]|]. destruct (E3 L2) as [L3 Q3]. split; [exact L3|]. destruct L3 as (_ & Lx & _). unfold sp in *. lia. }
    destruct Mv3 as [L3 Q3].
    destruct eof.
    { apply leads_ret. intros _. exists lst. split; [reflexivity|]. exists (snd (sp S2)). now apply Sl. }
    destruct (match s with Some v => reads_from_stdin v | None => false end) eqn:Fs.
    - assert (Pk : s_peek (g_st S3) = None). { destruct E3 as [->|[_ E3]]; [|exact E3]. destruct s; [now apply Cp|discriminate]. }
      apply leads_bind. eapply leads_conseq; [apply stdin_past, Pk| |auto]. intros [d s'] S4 H4. destruct (H4 L3) as (L4 & H5 & H6 & H7). cbn [snd] in H5, H6, H7.
      apply leads_ret. intros _. exists (lst ++ [SStdin (mkStdin d s')]). split; [cbn [sumv]; now rewrite app_assoc|].
      eapply spread_app; [apply (Sl (fst s')); lia|]. eapply spread_one; [reflexivity|exact H6|exact H7|].
      assert (Wi : within f (fst s') (snd s') s') by (split; [lia|left; lia]). change (spans_in (SStdin (mkStdin d s'))) with [s'; s']. constructor; [exact Wi|constructor; [exact Wi|constructor]].
    - apply leads_delim, leads_try. unfold consume_token. apply leads_token. destruct (tok_eqb _ _).
      + eapply leads_conseq; [apply (leads_consume any)| |].
        * intros u S4 H4. destruct (H4 L3) as [L4 H5]. apply leads_ret. intros _. exists lst. split; [reflexivity|]. apply Sl. unfold sp in *. lia.
        * intros S4 _. exact I.
      + pose proof (rets_expected span (fun _ _ => False) (tok_name (s_delim (g_st S3))) S3) as Z. unfold leads. destruct (rung _ S3) as [u S4|S4| |]; try exact I. destruct Z. }
  apply leads_bind. apply leads_rung.
  - intros s S2 Rs. pose proof (leads_moved _ (r_stmt (knot n)) S1) as Mv. unfold leads in Mv. rewrite Rs in Mv. destruct s as [v|].
    + apply leads_ret. apply (T (Some v) S2 Mv).
      * intros Pr w Ew. injection Ew as <-. eapply window; [apply C1|lia|exact Rs|exact Pr].
      * pose proof (@k_cp _ (knot_cp n) S1) as Y. rewrite Rs in Y. exact Y.
    + pose proof (rets_expected stmt (fun _ _ => False) "Statement" S2) as Z. pose proof (leads_moved _ (@expected_failure stmt "Statement") S2) as Y. unfold leads in Y. unfold leads at 1.
      destruct (rung (expected_failure "Statement") S2) as [u S3|S3| |]; try exact I; [destruct Z|]. apply leads_ret. apply (T None S3); [eapply moved_trans; eauto|discriminate|exact I].
  - intros S2 Rs. pose proof (leads_moved _ (r_stmt (knot n)) S1) as Mv. unfold leads in Mv. rewrite Rs in Mv. apply leads_ret. apply (T None S2 Mv); [discriminate|exact I].
Qed.
Lemma loop_spread k : forall ans S l S', @wf V S -> dlive S -> m S < n -> @Forall atom (@ok V (@nb V)) (atoms ans) ->
  rung (loop k (parse_statements_step (knot n)) ans) S = GOk l S' -> pre S' -> exists l' q, l = ans ++ l' /\ spread f (fst (sp S)) l' q.
Proof.
  induction k as [|k IH]; intros ans S l S' Hw Hd Hm Ha R Pr; [discriminate|]. cbn [loop] in R. rewrite rung_bind in R.
  pose proof (@statements_step_wp V (knot n) (knot_ok n) (knot_cp n) ans S Hw Hd) as X. rewrite SafeTop.r_n_knot in X. specialize (X ltac:(lia) Ha). unfold wp in X.
  destruct (rung (parse_statements_step (knot n) ans) S) as [x S1|S1| |] eqn:R1; try discriminate R. destruct (X I) as (E1 & D1 & M1 & _ & O1 & _). clear X.
  assert (Pr1 : pre S1).
  { destruct x as [y|y]; [|cbn [rung] in R; injection R as _ ->; exact Pr]. pose proof (run_grown _ (loop k (parse_statements_step (knot n)) y) (g_st S1)) as G. rewrite rung_run, R in G. cbn [forget] in G.
    destruct Pr as [r P]. destruct G as (_ & _ & _ & ni & G & _). rewrite G, <- app_assoc in P. now exists (ni ++ r). }
  destruct (step_spread _ _ _ _ Hw Hd Hm R1 Pr1) as (l1 & E2 & Sp). destruct x as [y|y]; cbn [sumv] in *.
  - destruct D1 as [D1|(_ & U & _)].
    + subst y. destruct (IH _ _ _ _ (ex_wf _ _ E1) D1 ltac:(lia) O1 R Pr) as (l2 & q & E3 & Sp2). exists (l1 ++ l2), q. split; [now rewrite E3, app_assoc|]. eapply spread_app; eauto.
    + destruct k as [|k]; [discriminate R|]. cbn [loop] in R. rewrite rung_bind in R. unfold parse_statements_step in R at 1. rewrite rung_bind, (stuck_loops _ U) in R. discriminate R.
  - cbn [rung] in R. injection R as <- _. destruct Sp as [q Sp]. exists l1, q. auto.
Qed.
End Spread.
Lemma statements_spread src issues o l out : parse_statements src issues o = Returns l out -> exists q, spread (new_issues issues out) 0 l q.
Proof.
  intros H. apply statements_from_empty in H. set (f := new_issues issues out) in *. clearbody f. unfold parse_statements, parse_statements_n in H.
  pose proof (@init_wf (env0 src o) I) as X. change SafeLogic.src with src in X. change opts with o in X.
  destruct (parser_new src src [] o) as [st _x|w|]; try discriminate H. destruct X as (Hw & Hm & _ & Hd).
  pose proof (rung_run _ (parse_statements_loop (knot (budget src))) (mkG st [])) as R. cbn [g_st] in R. rewrite R in H. clear R.
  destruct (rung (parse_statements_loop (knot (budget src))) (mkG st [])) as [a S'|S'|w|] eqn:Rg; cbn [forget outcome_of] in H; try discriminate H.
  injection H as -> Ef. unfold parse_statements_loop in Rg.
  destruct (loop_spread src o f (budget src) (r_n (knot (budget src))) [] (mkG st []) l S' Hw Hd) as (l' & q & -> & Sp); auto.
  - unfold budget. lia.
  - constructor.
  - exists []. now rewrite app_nil_r.
  - exists q. cbn [app]. inversion Sp; subst; [constructor; lia|]. eapply sd_cons; [|eassumption..]. lia.
Qed.

(** ** C49 *)
Lemma spread_nth f l : forall p q i x, spread f p l q -> nth_error l i = Some x ->
  exists a b, p <= a /\ a <= b /\ Forall (within f a b) (spans_in x) /\ spread f b (skipn (S i) l) q.
Proof.
  induction l as [|z l IH]; intros p q i x H N; [destruct i; discriminate N|]. inversion H as [|? a b ? ? ? H1 H2 H3 H4]; subst.
  destruct i as [|i]; cbn [nth_error] in N.
  - injection N as ->. exists a, b. auto.
  - destruct (IH _ _ _ _ H4 N) as (a' & b' & I1 & I2 & I3 & I4). exists a', b'. split; [lia|]. auto.
Qed.
#[local] Instance within_join f a b : join_closed (within f a b).
Proof. intros s t [H1 H2] [H3 H4]. unfold within, join. cbn [fst snd]. split; [lia|]. destruct H2 as [H2|[H2 H5]], H4 as [H4|[H4 H6]]; [left; lia|right|right|right]; (split; [lia|assumption]). Qed.
Lemma spans_aspans P (x : stmt) : Forall P (spans_in x) -> Forall (aspans P (fun _ => True)) (atoms x).
Proof.
  unfold spans_in. intros H. apply Forall_flat_map in H. eapply Forall_impl; [|exact H]. intros a Ha. destruct a; cbn in *; auto; now inversion Ha.
Qed.
(** The span of a statement, if it has one. *)
Lemma within_spn f a b (x : stmt) s : Forall (within f a b) (spans_in x) -> spn x = SSome s -> within f a b s.
Proof.
  intros H E. apply spans_aspans in H. pose proof (@stmt_spok (within f a b) (within_join f a b) (fun _ => True) x H) as X. rewrite E in X. exact X.
Qed.
(** The spans in a statement of a script end before the spans in the later ones start.  (If there
    are Errors, a span that was made up starts at 0.) *)
Theorem C49_in_order : forall src issues o l out i j x y s t,
  parse_statements src issues o = Returns l out ->
  i < j -> nth_error l i = Some x -> nth_error l j = Some y ->
  In s (spans_in x) \/ spn x = SSome s -> In t (spans_in y) \/ spn y = SSome t ->
  snd s <= fst t \/ (fst t = 0 /\ errors (new_issues issues out) <> []).
Proof.
  intros src issues o l out i j x y s t H Hij Hx Hy Hs Ht. destruct (statements_spread _ _ _ _ _ H) as [q Sp]. set (f := new_issues issues out) in *. clearbody f.
  destruct (spread_nth _ _ _ _ _ _ Sp Hx) as (a & b & _ & _ & Fx & Sp').
  assert (Hy' : nth_error (skipn (S i) l) (j - S i) = Some y).
  { rewrite <- Hy. replace j with (S i + (j - S i)) at 2 by lia. clear. generalize (j - S i) as k. generalize (S i) as p. intros p. revert l.
    induction p as [|p IH]; intros l k; [reflexivity|]. destruct l as [|z l]; [destruct k; reflexivity|]. cbn. apply IH. }
  destruct (spread_nth _ _ _ _ _ _ Sp' Hy') as (a' & b' & Le & _ & Fy & _).
  assert (W1 : within f a b s) by (destruct Hs as [Hs|Hs]; [rewrite Forall_forall in Fx; auto|eapply within_spn; eauto]).
  assert (W2 : within f a' b' t) by (destruct Ht as [Ht|Ht]; [rewrite Forall_forall in Fy; auto|eapply within_spn; eauto]).
  destruct W1 as [W1 _], W2 as [_ [W2|W2]]; [left|now right]. unfold span in *. lia.
Qed.
(** Without Errors there is no exception. *)
Theorem C49_in_order_no_error : forall src issues o l out i j x y s t,
  parse_statements src issues o = Returns l out -> errors (new_issues issues out) = [] ->
  i < j -> nth_error l i = Some x -> nth_error l j = Some y ->
  In s (spans_in x) \/ spn x = SSome s -> In t (spans_in y) \/ spn y = SSome t ->
  snd s <= fst t.
Proof.
  intros src issues o l out i j x y s t H E Hij Hx Hy Hs Ht. destruct (C49_in_order _ _ _ _ _ _ _ _ _ _ _ H Hij Hx Hy Hs Ht) as [L|[_ L]]; [exact L|congruence].
Qed.
(** The exception is there: the span of the second statement covers the first one. *)
Theorem C49_exception_exists : exists src o x y out s t,
  parse_statements src [] o = Returns [x; y] out /\ spn x = SSome s /\ spn y = SSome t /\ fst t < snd s.
Proof.
  exists (txt "SELECT 1; CREATE TABLE t (a INT(x));"), default_options.
  destruct (parse_statements (txt "SELECT 1; CREATE TABLE t (a INT(x));") [] default_options) as [l out|w|] eqn:E; [|vm_compute in E; discriminate E..].
  assert (X : match parse_statements (txt "SELECT 1; CREATE TABLE t (a INT(x));") [] default_options with
    | Returns [x; y] _ => spn x = SSome (0, 8) /\ spn y = SSome (0, 31) | _ => False end) by (vm_compute; auto).
  rewrite E in X. destruct l as [|x [|y [|]]]; try destruct X. exists x, y, out, (0, 8), (0, 31). repeat split; auto. cbn. lia.
Qed.
(** A script with data from standard input: four elements, without Errors. *)
Example C49_applies :
  match parse_statements (txt "SELECT 1; COPY t (a) FROM STDIN;
1
\.
DROP TABLE t;") [] (mkOptions PostgreSQL ArgNone false false false) with
  | Returns [a; b; c; d] out => errors out = [] /\ map spn [a; b; c; d] = [SSome (0, 8); SSome (10, 31); SSome (33, 35); SSome (38, 50)] /\
      spans_in b = [(10, 14); (15, 16); (18, 19); (21, 25); (26, 31)]
  | _ => False end.
Proof. vm_compute. repeat split. Qed.
