(** The program logic, continued: specifications of the [Parser] methods and of the loop and
    recovery combinators, and the tactic [go] that walks through a parser function. *)
From Verif Require Export SafePrim.
Local Open Scope string_scope.
Local Open Scope list_scope.

Definition d0 {T} (_ : T) : nat := 0.
Definition d1 {T} (_ : T) : nat := 1.
Definition dopt {T} (o : option T) : nat := match o with Some _ => 1 | None => 0 end.
Definition dsum {X T} (k : nat) (o : X + T) : nat := match o with inl _ => 1 | inr _ => k end.
Definition dctl {X} (x : X * ctl) : nat := match snd x with Continue => 1 | _ => 0 end.
Definition ectl {X} (x : X * ctl) : nat := match snd x with Abort => 1 | _ => 0 end.
Definition eok {X} (x : X * bool) : nat := if snd x then 0 else 1.
Definition enone {X} (x : option X) : nat := match x with None => 1 | _ => 0 end.

Section Methods.
Context {V : env}.
Definition gW {T} {I : Atoms T} (a : T) : nat := W (atoms a).
(** Weight of a possibly recovered value: [None] stands for a reported error. *)
Definition gopt {T} {I : Atoms T} (a : option T) : nat := match a with Some x => gW x | None => winv end.

Lemma gW_pair A B (IA : Atoms A) (IB : Atoms B) (a : A) (b : B) : gW (a, b) = gW a + gW b.
Proof. apply W_app. Qed.
Lemma gW_some A (IA : Atoms A) (a : A) : gW (Some a) = gW a. Proof. reflexivity. Qed.
Lemma gW_none A (IA : Atoms A) : gW (@None A) = 0. Proof. reflexivity. Qed.
Lemma gW_inl A B (IA : Atoms A) (IB : Atoms B) (a : A) : gW (@inl A B a) = gW a. Proof. reflexivity. Qed.
Lemma gW_inr A B (IA : Atoms A) (IB : Atoms B) (b : B) : gW (@inr A B b) = gW b. Proof. reflexivity. Qed.
Lemma gW_nil A (IA : Atoms A) : gW (@nil A) = 0. Proof. reflexivity. Qed.
Lemma gW_cons A (IA : Atoms A) (a : A) l : gW (a :: l) = gW a + gW l.
Proof. apply W_app. Qed.
Lemma gW_app A (IA : Atoms A) (l l' : list A) : gW (l ++ l') = gW l + gW l'.
Proof. unfold gW. rewrite atoms_app. apply W_app. Qed.
Lemma gW_span (s : span) : gW s = 0. Proof. apply W_span. Qed.
Lemma gW_ident (s : ident) : gW s = 0. Proof. apply W_ident. Qed.
Lemma gW_sstring (s : sstring) : gW s = 0. Proof. apply W_sstring. Qed.
Lemma gW_tagged (s : tagged) : gW s = 0. Proof. apply W_tagged. Qed.
Lemma gW_invalid (s : invalid) : gW s <= winv. Proof. apply W_invalid. Qed.

Lemma ok_app b l l' : Forall (ok b) l -> Forall (ok b) l' -> Forall (ok b) (l ++ l').
Proof. intros. apply Forall_app. auto. Qed.
Lemma ok_pair b A B (IA : Atoms A) (IB : Atoms B) (x : A) (y : B) :
  Forall (ok b) (atoms (x, y)) -> Forall (ok b) (atoms x) /\ Forall (ok b) (atoms y).
Proof. intros H. apply Forall_app in H. exact H. Qed.

Lemma spec_mono T (I : Atoms T) b N N' i d e g (p : prog T) : spec b N i d e g p -> N' <= N -> spec b N' i d e g p.
Proof. intros H L S Hw Hm. apply H; auto. lia. Qed.

(** *** Keywords and tokens *)
Lemma expected_failure_spec T (I : Atoms T) N s : spec false N 0 d1 d0 gW (expected_failure s : prog T).
Proof. intros S Hw Hm. apply wp_expected_failure. now apply cx_refl. Qed.
Lemma consume_post S : wf S -> is_eof (tk S) = false ->
  wp consume (post S false 0 d1 d0 gW) (fpost S) S.
Proof.
  intros Hw He. change consume with (bind consume Ret). eapply step_consume; [now apply cx_refl|].
  intros S' C _ L A _. rewrite He in L. apply wp_ret. split; [exact C|]. split; [exact L|].
  split; [unfold d0; pose proof (c_nerr _ _ C); lia|]. split; [rewrite gW_span; lia|]. apply ok_span, wf_wspan, Hw.
Qed.
Lemma consume_keyword_spec N k : spec false N 0 d1 d0 gW (consume_keyword k).
Proof.
  intros S Hw Hm. apply step_token. destruct (tk S) eqn:Et; try (apply wp_expected_failure; now apply cx_refl).
  destruct (kw_eqb k0 (KW k)) eqn:Ek; [|apply wp_expected_failure; now apply cx_refl].
  apply step_span. eapply step_lint_caps; [now apply cx_refl|eapply wf_keyword; [exact Hw|exact Et|eauto]|]. intros S' C _ M1 N1 A1 T1 P1.
  eapply wp_conseq; [apply consume_post; [apply C|now rewrite T1, Et]| |].
  - intros a S2 (C2 & M2 & N2 & A2 & O2). split; [eapply cx_trans; eauto|]. repeat split; auto; lia.
  - intros S2. now apply fpost_trans.
Qed.
Lemma consume_keywords_from_spec N ks : forall s, wspan src s -> spec false N 0 d0 d0 gW (consume_keywords_from s ks).
Proof.
  induction ks as [|k ks IH]; intros s Hs S Hw Hm; cbn [consume_keywords_from].
  - apply wp_ret. split; [now apply cx_refl|]. rewrite gW_span. unfold d0. repeat split; try lia. now apply ok_span.
  - eapply step_; [apply (consume_keyword_spec N)|now apply cx_refl|exact Hm|]. intros a S' C _ M1 N1 A1 O1.
    apply span_ok in O1. eapply tail_; [apply (IH (join a s)); now apply wspan_join|exact C|cbv [d1] in *; lia|].
    intros a' S2 C2 _ M2 N2 A2 O2. split; [exact C2|]. cbv [d0 d1] in *. rewrite gW_span in *. repeat split; auto; lia.
Qed.
Lemma consume_keywords_spec N k ks : spec false N 0 d1 d0 gW (consume_keywords (k :: ks)).
Proof.
  intros S Hw Hm. cbn [consume_keywords].
  eapply step_; [apply (consume_keyword_spec N)|now apply cx_refl|exact Hm|]. intros a S' C _ M1 N1 A1 O1.
  apply span_ok in O1. eapply tail_; [apply consume_keywords_from_spec; exact O1|exact C|apply Nat.lt_succ_diag_r|].
  intros a' S2 C2 _ M2 N2 A2 O2. split; [exact C2|]. cbv [d0 d1] in *. rewrite gW_span in *. repeat split; auto; lia.
Qed.
Lemma post_none T (I : Atoms T) S : wf S -> post S false 0 (@dopt T) d0 gW None S.
Proof. intros Hw. split; [now apply cx_refl|]. cbn [dopt]. rewrite gW_none. unfold d0. repeat split; try lia. constructor. Qed.
Lemma skip_keyword_spec N k : spec false N 0 dopt d0 gW (skip_keyword k).
Proof.
  intros S Hw Hm. apply step_token. destruct (is_kw (tk S) k) eqn:E; [|apply wp_ret; now apply post_none].
  apply is_kw_inv in E as [v E]. apply wp_try. unfold consume_keyword. apply step_token. rewrite E. cbn [kw_eqb].
  rewrite String.eqb_refl. apply step_span.
  eapply step_lint_caps; [now apply cx_refl|eapply wf_keyword; [exact Hw|exact E|exists k; apply String.eqb_refl]|]. intros S' C _ M1 N1 A1 T1 P1.
  change consume with (bind consume Ret). eapply step_consume; [exact C|]. intros S2 C2 _ M2 A2 _.
  rewrite T1, E in M2. cbn in M2. apply wp_ret. apply wp_ret. split; [exact C2|]. cbn [dopt]. rewrite gW_some, gW_span.
  pose proof (c_nerr _ _ C2). unfold d0. repeat split; try lia. apply (ok_span false), wf_wspan, C.
Qed.
Lemma consume_token_spec N w : is_eof w = false -> spec false N 0 d1 d0 gW (consume_token w).
Proof.
  intros Hv S Hw Hm. apply step_token. destruct (tok_eqb (tk S) w) eqn:E; [|apply wp_expected_failure; now apply cx_refl].
  apply consume_post; auto. eapply tok_eqb_live; eauto.
Qed.
Lemma skip_token_spec N w : is_eof w = false -> spec false N 0 dopt d0 gW (skip_token w).
Proof.
  intros Hv S Hw Hm. apply step_token. destruct (tok_eqb (tk S) w) eqn:E; [|apply wp_ret; now apply post_none].
  eapply step_consume; [now apply cx_refl|]. intros S2 C2 _ M2 A2 _. rewrite (tok_eqb_live _ _ E Hv) in M2. cbn in M2.
  apply wp_ret. split; [exact C2|]. cbn [dopt]. rewrite gW_some, gW_span. pose proof (c_nerr _ _ C2).
  unfold d0. repeat split; try lia. apply (ok_span false), wf_wspan, Hw.
Qed.

(** *** Identifiers, strings, numbers *)
Lemma longer (a b : N) (v : text) : [a] ++ v ++ [b] <> v.
Proof. intros H. apply (f_equal (@length N)) in H. cbn in H. rewrite app_length in H. cbn in H. lia. Qed.
Lemma reserved_word v k s : tok_at (TIdent v k) s -> kw_reserved k = true -> wat_span src s v /\ reserved v = true.
Proof.
  intros (_ & w & H1 & H2) R. destruct k; [discriminate..|]. destruct H2 as (-> & _ & H2). split; [exact H1|].
  unfold reserved. now rewrite <- H2.
Qed.
Lemma unreserved_word v k s : tok_at (TIdent v k) s -> kw_reserved k = false -> negb (kw_eqb k QUOTED_IDENTIFIER) = true ->
  wat_span src s v /\ reserved v = false.
Proof.
  intros (_ & w & H1 & H2) R Q. destruct k; [|discriminate|]; destruct H2 as (-> & _ & H2); (split; [exact H1|]); unfold reserved; now rewrite <- H2.
Qed.
(** What is reported about a word read as a name. *)
Definition word_noted (v : text) (k : kw) (s : span) : Prop :=
  (kw_reserved k = true -> finally (reported (msg_reserved v) s)) /\
  (kw_reserved k = false -> negb (kw_eqb k QUOTED_IDENTIFIER) = true -> o_warn_unquoted opts = true -> finally (noted (msg_unquoted v) s)).
Lemma ident_ok b v k s : tok_at (TIdent v k) s -> word_noted v k s -> Forall (ok b) (atoms (mkIdent v s)).
Proof.
  intros (_ & w & H1 & H2) [R1 R2]. constructor; [|constructor]. exists w. split; [exact H1|].
  cbn [id_value id_span]. destruct k.
  - destruct H2 as (-> & _ & H2). split; [unfold ident_text; auto|]. unfold reserved. rewrite <- H2. split; auto.
  - destruct H2 as (-> & _). split; [unfold ident_text; auto|]. split; intros X; now apply longer in X.
  - destruct H2 as (-> & _ & H2). split; [unfold ident_text; auto|]. unfold reserved. rewrite <- H2. split; auto.
Qed.
Lemma ident_dq_ok b v s : tok_at (TDoubleQuotedString v) s -> Forall (ok b) (atoms (mkIdent v s)).
Proof.
  intros (_ & w & H1 & H2). constructor; [|constructor]. exists w. split; [exact H1|]. destruct H2 as [-> _].
  cbn [id_value id_span]. split; [unfold ident_text; auto|]. split; intros X; now apply longer in X.
Qed.
Lemma consume_ident_post E S v : cx E S -> is_eof (tk S) = false ->
  Forall (ok false) (atoms (mkIdent v (sp S))) ->
  wp (c <- consume ;; Ret (mkIdent v c)) (post E false 0 d1 d0 gW) (fpost E) S.
Proof.
  intros C He O. eapply step_consume; [exact C|]. intros S2 C2 _ M2 A2 _. rewrite He in M2. cbn in M2.
  apply wp_ret. split; [exact C2|]. rewrite gW_ident. pose proof (c_nerr _ _ C2). pose proof (c_m _ _ C). pose proof (cx_A _ _ C2).
  unfold d0, d1. repeat split; try lia. exact O.
Qed.
Lemma consume_plain_identifier_spec N : spec false N 0 d1 d0 gW consume_plain_identifier.
Proof.
  intros S Hw Hm. pose proof (cx_refl _ Hw) as C. apply step_token. pose proof (w_tok _ _ Hw) as T.
  destruct (tk S) eqn:Et; try (now apply wp_expected_failure).
  - apply step_span. eapply step_dialect; [exact C|].
    assert (G : word_noted t k (sp S) -> forall S', cx S S' -> tk S' = tk S -> sp S' = sp S ->
      wp (c <- consume ;; Ret (mkIdent t c)) (post S false 0 d1 d0 gW) (fpost S) S').
    { intros R S' C' T' P'. apply consume_ident_post; auto; [now rewrite T', Et|]. rewrite P'. eapply ident_ok; eauto. }
    destruct (kw_reserved k) eqn:R; [|destruct (negb (kw_eqb k QUOTED_IDENTIFIER)) eqn:Eq; [|destruct (is_postgresql _) eqn:Ep]].
    + destruct (reserved_word _ _ _ T R). eapply step_reserved; [exact C|assumption|assumption|]. intros; apply G; auto. split; [auto|rewrite R; discriminate].
    + destruct (unreserved_word _ _ _ T R Eq). eapply step_lint_ident; [exact C|assumption|assumption|]. intros; apply G; auto. split; [rewrite R; discriminate|auto].
    + eapply step_err; [exact C|now apply wf_wspan|unfold plain; now destruct (o_dialect opts)|]. intros; apply G; auto; split; [rewrite R|rewrite Eq]; discriminate.
    + apply G; auto; split; [rewrite R|rewrite Eq]; discriminate.
  - eapply step_dialect; [exact C|]. destruct (is_postgresql _); [|now apply wp_expected_failure].
    apply consume_ident_post; auto; [now rewrite Et|]. now apply ident_dq_ok.
Qed.
Lemma token_to_plain_identifier_spec N t s : tok_at t s -> spec false N 0 d0 d0 gW (token_to_plain_identifier t s).
Proof.
  intros T S Hw Hm. pose proof (cx_refl _ Hw) as C. pose proof (tok_at_wspan _ _ T) as Hs.
  destruct t; try (now apply wp_expected_failure). cbn [token_to_plain_identifier].
  assert (G : word_noted t k s -> forall S', cx S S' ->
    wp (Ret (mkIdent t s)) (post S false 0 d0 d0 gW) (fpost S) S').
  { intros R S' C'. apply wp_ret. split; [exact C'|]. rewrite gW_ident. pose proof (c_nerr _ _ C'). pose proof (c_m _ _ C').
    pose proof (cx_A _ _ C'). unfold d0. repeat split; try lia. eapply ident_ok; eauto. }
  destruct (kw_reserved k) eqn:R; [|destruct (negb (kw_eqb k QUOTED_IDENTIFIER)) eqn:Eq].
  - destruct (reserved_word _ _ _ T R). eapply step_reserved; [exact C|assumption|assumption|]. intros; apply G; auto. split; [auto|rewrite R; discriminate].
  - destruct (unreserved_word _ _ _ T R Eq). eapply step_lint_ident; [exact C|assumption|assumption|]. intros; apply G; auto. split; [rewrite R; discriminate|auto].
  - apply G; auto; split; [rewrite R|rewrite Eq]; discriminate.
Qed.

(** *** Loops *)
Lemma loop_wp X T (IT : Atoms T) b N k (P : X -> Prop) (R : T -> Prop) (w : X -> nat) (g : T -> nat) (body : X -> prog (X + T)) :
  k <= 1 ->
  (forall x S, P x -> wf S -> m S < N ->
     wp (body x) (fun r S' => match r with
       | inl x' => cx S S' /\ m S' + 1 <= m S /\ AA S + w x' <= AA S' + w x /\ P x'
       | inr a => cx S S' /\ m S' + k <= m S /\ AA S + g a <= AA S' + w x /\ Forall (ok b) (atoms a) /\ R a
       end) (fpost S) S) ->
  forall n x S, P x -> wf S -> m S < n -> m S < N ->
    wp (loop n body x) (fun a S' => cx S S' /\ m S' + k <= m S /\ AA S + g a <= AA S' + w x /\ Forall (ok b) (atoms a) /\ R a)
       (fpost S) S.
Proof.
  intros Lk Hb. induction n as [|n IH]; intros x S HP Hw Hn HN; [lia|]. cbn [loop]. apply wp_bind.
  eapply wp_conseq; [apply Hb; auto| |auto]. intros [x'|a] S' H.
  - destruct H as (C1 & M1 & A1 & P1). eapply wp_conseq; [apply (IH x' S'); auto; [apply C1|lia|lia]| |].
    + intros a S2 (C2 & M2 & A2 & O2 & R2). split; [eapply cx_trans; eauto|]. repeat split; auto; lia.
    + intros S2. now apply fpost_trans.
  - apply wp_ret; exact H.
Qed.
Lemma loop_spec X T (IX : Atoms X) (IT : Atoms T) b N k n (body : X -> prog (X + T)) x :
  (forall x, Forall (ok b) (atoms x) -> spec b N (gW x) (dsum k) d0 gW (body x)) ->
  k <= 1 -> N <= n -> Forall (ok b) (atoms x) -> spec b N (gW x) (fun _ => k) d0 gW (loop n body x).
Proof.
  intros Hb Lk Ln Hx S Hw Hm.
  eapply wp_conseq; [apply (loop_wp X T IT b N k (fun x => Forall (ok b) (atoms x)) (fun _ => True) gW gW body Lk); auto| |auto].
  - intros y S1 Hy Hw1 Hm1. eapply wp_conseq; [apply Hb; auto| |auto].
    intros [x'|a] S2 (C & M & N' & A & O); cbn [dsum] in M; (split; [exact C|]; split; [exact M|]; split; [exact A|]; auto).
  - lia.
  - cbn. intros a S' (C & M & A & O & _). split; [exact C|]. pose proof (c_nerr _ _ C). unfold d0. repeat split; auto; lia.
Qed.
Lemma loop_acc_spec X (IX : Atoms X) b N n (body : X -> prog (X * ctl)) x :
  (forall x, Forall (ok b) (atoms x) -> spec b N (gW x) dctl ectl gW (body x)) ->
  N <= n -> Forall (ok b) (atoms x) -> spec b N (gW x) d0 eok gW (loop_acc n body x).
Proof.
  intros Hb Ln Hx S Hw Hm. assert (Hn : m S < n) by lia. clear Ln. revert x Hx S Hw Hm Hn.
  induction n as [|n IH]; intros x Hx S Hw Hm Hn; [lia|]. cbn [loop_acc]. apply wp_try.
  eapply wp_conseq; [apply Hb; auto| |].
  - intros [x' c] S1 (C & M & N1 & A & O). apply ok_pair in O as [O _]. cbn [fst snd] in O.
    cbv [dctl ectl] in *. rewrite gW_pair in A. change (gW c) with 0 in A. cbn [snd] in *.
    destruct c.
    + eapply wp_conseq; [apply (IH x'); auto; [apply C|lia|lia]| |].
      * intros a S2 (C2 & M2 & N2 & A2 & O2). split; [eapply cx_trans; eauto|]. cbv [d0] in *. repeat split; auto; lia.
      * intros S2. now apply fpost_trans.
    + apply wp_ret. split; [exact C|]. cbv [d0 eok]. cbn [snd]. rewrite gW_pair. change (gW true) with 0.
      repeat split; auto; try lia. apply ok_app; [exact O|constructor].
    + apply wp_ret. split; [exact C|]. cbv [d0 eok]. cbn [snd]. rewrite gW_pair. change (gW false) with 0.
      repeat split; auto; try lia. apply ok_app; [exact O|constructor].
  - intros S1 [C L]. apply wp_ret. split; [exact C|]. cbv [d0 eok]. cbn [snd]. rewrite gW_pair. change (gW false) with 0.
    pose proof (cx_A _ _ C). pose proof (c_m _ _ C). repeat split; auto; try lia. apply ok_app; [exact Hx|constructor].
Qed.

(** *** Recovery *)
Lemma step_recovered_end U n e (k : unit -> prog U) Q E S : cx E S ->
  (forall S', cx E S' -> cx S S' -> m S' <= m S -> AA S <= AA S' -> e (tk S') = true -> wp (k tt) Q (fpost E) S') ->
  wp (bind (recovered_end n e) k) Q (fpost E) S.
Proof.
  intros C H. unfold recovered_end. change (bind (bind token ?f) k) with (bind token (fun s => bind (f s) k)).
  apply step_token. destruct (e (tk S)) eqn:Ee.
  - apply H; auto. apply cx_refl, C.
  - change (bind (bind (expected_error n) ?f) k) with (bind (expected_error n) (fun s => bind (f s) k)).
    eapply step_expected; [exact C|]. intros S1 C1 C1' M1 N1 A1 _ _. pose proof (c_nerr _ _ C).
    eapply step_recover; [exact C1|lia|]. intros S2 C2 C2' M2 A2 Et. apply H; auto; try lia. eapply cx_trans; eauto.
Qed.
Lemma recovered_spec T (I : Atoms T) b N i e0 g (dflt : T) name e (p : prog T) :
  spec b N i d0 e0 g p -> g dflt <= winv -> (forall S, compat S -> 0 < nerr S -> Forall (ok b) (atoms dflt)) ->
  spec b N i d0 d0 g (recovered dflt name e p).
Proof.
  intros Hp Hg Ho S Hw Hm. unfold recovered. apply wp_bind. apply wp_try.
  assert (G : forall a S1, cx S S1 -> AA S + g a <= AA S1 + i -> Forall (ok b) (atoms a) ->
     wp (bind (recovered_end name e) (fun _ => Ret a)) (post S b i d0 d0 g) (fpost S) S1).
  { intros a S1 C1 A1 O1. eapply step_recovered_end; [exact C1|]. intros S2 C2 _ M2 A2 _. apply wp_ret.
    pose proof (c_m _ _ C2). pose proof (c_nerr _ _ C2). unfold d0. split; [exact C2|]. repeat split; auto; lia. }
  eapply wp_conseq; [apply Hp; auto| |].
  - intros a S1 (C1 & M1 & N1 & A1 & O1). apply wp_ret. now apply G.
  - intros S1 [C1 L1]. apply wp_compat. intros K1. apply step_recover; auto. intros S2 C2 _ M2 A2 _. apply wp_ret. apply G; auto.
    + pose proof (cx_A_err _ _ C1 L1). lia.
    + apply (Ho S1 K1). lia.
Qed.
Lemma recovered_acc_spec T (I : Atoms T) b N i name e (p : prog (T * bool)) :
  spec b N i d0 eok gW p -> spec b N i d0 d0 gW (recovered_acc name e p).
Proof.
  intros Hp S Hw Hm. unfold recovered_acc. apply wp_bind. eapply wp_conseq; [apply Hp; auto| |auto].
  intros [a x] S1 (C1 & M1 & N1 & A1 & O1). apply ok_pair in O1 as [O1 _]. cbn [fst snd] in *.
  rewrite gW_pair in A1. change (gW x) with 0 in A1. cbv [eok d0] in *. cbn [snd] in *.
  assert (G : forall S2, cx S S2 -> AA S1 <= AA S2 ->
     wp (bind (recovered_end name e) (fun _ => Ret a)) (post S b i d0 d0 gW) (fpost S) S2).
  { intros S2 C2 A2. eapply step_recovered_end; [exact C2|]. intros S3 C3 _ M3 A3 _. apply wp_ret.
    pose proof (c_m _ _ C3). pose proof (c_nerr _ _ C3). unfold d0. split; [exact C3|]. repeat split; auto; lia. }
  destruct x.
  - now apply G.
  - apply step_recover; [exact C1|lia|]. intros S2 C2 _ M2 A2 _. now apply G.
Qed.
End Methods.
