(** Spans of keywords: where they begin, what is written there, and that the next token
    follows after nothing but white space and comments. *)
From Verif Require Export Ctors.
Local Open Scope string_scope.
Local Open Scope list_scope.

Section Seg.
Context {V : env}.
(** The words [ks] stand at [s]. *)
Definition kwat (ks : list string) (s : span) : Prop := exists w, w <> [] /\ wat_span src s w /\ phrase ks w.
(** The words [ks] stand at [a], from the current token of [S] up to that of [S']. *)
Record seg (ks : list string) (S : gst) (a : span) (S' : gst) : Prop := mkSeg {
  g_kw : kwat ks a; g_fst : fst a = fst (sp S); g_gap : gap_at src (snd a) (fst (sp S')) }.
(** The same for a token. *)
Record tseg (S : gst) (a : span) (S' : gst) : Prop := mkTSeg {
  t_tok : tok_at (tk S) a; t_fst : fst a = fst (sp S); t_gap : gap_at src (snd a) (fst (sp S')) }.
(** The same for a keyword that may be missing. *)
Definition oseg (k : string) (S : gst) (a : option span) (S' : gst) : Prop :=
  match a with Some s => seg [k] S s S' | None => sp S' = sp S /\ tk S' = tk S end.

Lemma kwat_wspan ks s : kwat ks s -> wspan src s.
Proof. intros (w & _ & H & _). eapply wat_wspan; eauto. Qed.
Lemma at_app a b w1 w2 : wat_span src a w1 -> wat_span src b w2 -> w2 <> [] -> gap_at src (snd a) (fst b) ->
  exists g, trivia g /\ wat_span src (fst a, snd b) (w1 ++ g ++ w2).
Proof.
  intros [(p1 & q1 & E1 & F1 & L1) I1] [(p2 & q2 & E2 & F2 & L2) I2] N2 (pre & g & rest & E3 & F3 & L3 & G).
  assert (X : pre = p1 ++ w1).
  { rewrite E1, app_assoc in E3. destruct (blen_app_inv _ _ _ _ E3) as (m & -> & _); [rewrite blen_app; lia|].
    rewrite blen_app in F3. rewrite L1, blen_app in F3. assert (blen m = 0) by lia. apply blen_nil_inv in H as ->. now rewrite app_nil_r. }
  subst pre. assert (Y : p2 = (p1 ++ w1) ++ g /\ rest = w2 ++ q2).
  { rewrite E2 in E3. rewrite (app_assoc (p1 ++ w1)) in E3. destruct (blen_app_inv _ _ _ _ E3) as (m & M1 & M2); [rewrite !blen_app in *; lia|].
    assert (blen m = 0). { apply (f_equal blen) in M1. rewrite !blen_app in *. lia. }
    apply blen_nil_inv in H as ->. rewrite app_nil_r in M1. cbn in M2. split; congruence. }
  destruct Y as [-> ->]. exists g. split.
  - destruct G as [G|[G _]]; [exact G|]. destruct w2; [congruence|discriminate].
  - split; [|replace (fst a, snd b) with (join a b); [now apply inside_join|unfold join; f_equal; rewrite !blen_app in *; lia]].
    exists p1, q2. rewrite !app_assoc in *. split; [congruence|]. cbn [fst snd]. split; [exact F1|]. rewrite !blen_app in *. lia.
Qed.
Lemma kwat_app k1 a k2 b : kwat k1 a -> kwat k2 b -> gap_at src (snd a) (fst b) -> kwat (k1 ++ k2) (fst a, snd b).
Proof.
  intros (w1 & N1 & A1 & P1) (w2 & N2 & A2 & P2) G. destruct (at_app _ _ _ _ A1 A2 N2 G) as (g & Tg & At).
  exists (w1 ++ g ++ w2). split; [destruct w1; [congruence|discriminate]|]. split; [exact At|]. now apply phrase_app.
Qed.
Lemma kwat_join k1 a k2 b : kwat k1 a -> kwat k2 b -> gap_at src (snd a) (fst b) ->
  join a b = (fst a, snd b) /\ join b a = (fst a, snd b).
Proof.
  intros H1 H2 G. apply kwat_wspan in H1, H2. destruct H1 as [[H1 _] _], H2 as [[H2 _] _]. apply gap_at_le in G. unfold join. split; f_equal; lia.
Qed.
Lemma seg_pair k1 k2 S a S1 S1' b S2 : seg k1 S a S1 -> seg k2 S1' b S2 -> sp S1' = sp S1 -> seg (k1 ++ k2) S (fst a, snd b) S2.
Proof. intros [A1 A2 A3] [B1 B2 B3] E. constructor; auto. apply kwat_app; auto. congruence. Qed.
Lemma seg_join k1 k2 S a S1 S1' b S2 : seg k1 S a S1 -> seg k2 S1' b S2 -> sp S1' = sp S1 -> seg (k1 ++ k2) S (join a b) S2.
Proof.
  intros HA HB E. pose proof (seg_pair _ _ _ _ _ _ _ _ HA HB E). destruct HA as [A1 A2 A3], HB as [B1 B2 B3].
  destruct (kwat_join _ _ _ _ A1 B1) as [-> _]; [congruence|assumption].
Qed.
Lemma seg_joinr k1 k2 S a S1 S1' b S2 : seg k1 S a S1 -> seg k2 S1' b S2 -> sp S1' = sp S1 -> seg (k1 ++ k2) S (join b a) S2.
Proof.
  intros HA HB E. pose proof (seg_pair _ _ _ _ _ _ _ _ HA HB E). destruct HA as [A1 A2 A3], HB as [B1 B2 B3].
  destruct (kwat_join _ _ _ _ A1 B1) as [_ ->]; [congruence|assumption].
Qed.

Lemma bind_bind A B C (p : prog A) (f : A -> prog B) (g : B -> prog C) Q F S :
  wp (bind p (fun a => bind (f a) g)) Q F S -> wp (bind (bind p f) g) Q F S.
Proof. unfold wp. rewrite !rung_bind. destruct (rung p S); auto. now rewrite rung_bind. Qed.
Lemma wp_tail_ret T (p : prog T) Q F S : wp (bind p Ret) Q F S -> wp p Q F S.
Proof. unfold wp. rewrite rung_bind. now destruct (rung p S). Qed.

(** The words of a token. *)
Definition tok_word (t : tok) (k : string) : Prop := forall w, tok_text t w -> upper w = txt k /\ w <> [].
Lemma tseg_seg S a S' k : tseg S a S' -> tok_word (tk S) k -> seg [k] S a S'.
Proof.
  intros [(_ & w & H1 & H2) T2 T3] H. constructor; auto. apply H in H2 as [H2 H3]. exists w. split; [exact H3|]. split; [exact H1|]. now apply ph_one.
Qed.
Lemma kw_tok_word t k : is_kw t k = true -> tok_word t k.
Proof.
  intros H w T. apply is_kw_inv in H as [v ->]. cbn in T. destruct T as (-> & (c & r & -> & _) & K). split; [|discriminate].
  destruct (kw_of_text_cases (upper (c :: r))) as [X|(s & X1 & _ & X2)]; [congruence|]. rewrite X1 in K. injection K as <-. now symmetry.
Qed.
Lemma kw_assoc_word A (tbl : list (string * A)) t k c : kw_assoc tbl t = Some (k, c) -> tok_word t k.
Proof. intros H. apply kw_assoc_kw in H. now apply kw_tok_word. Qed.
Lemma tok_eqb_word t t' k : tok_eqb t t' = true -> tok_word t' k -> tok_word t k.
Proof. intros H. apply tok_eqb_eq in H as ->. auto. Qed.

(** The leaf [l] is written at [s]. *)
Definition leaf_at (l : leaf) (s : span) : Prop := exists w, wat_span src s w /\ leaf_text l w.
Lemma leaf_seg l ks S s S' : seg ks S s S' -> leaf_words l ks = true -> leaf_at l s.
Proof. intros [(w & _ & H1 & H2) _ _] H. exists w. split; [exact H1|]. right. exists ks. auto. Qed.
Lemma leaf_tok l k S : wf S -> tok_word (tk S) k -> leaf_words l [k] = true -> leaf_at l (sp S).
Proof.
  intros Hw Hk H. destruct (w_tok _ _ Hw) as (_ & w & At & T). exists w. split; [exact At|]. right. exists [k]. split; [exact H|]. apply ph_one, (Hk w T).
Qed.
(** Tokens that are always written as the leaf [l]. *)
Definition tok_leaf (t : tok) (l : leaf) : Prop := forall w, tok_text t w -> leaf_text l w.
Lemma leaf_of_tok l t s : tok_at t s -> tok_leaf t l -> leaf_at l s.
Proof. intros (_ & w & At & T) H. exists w. split; [exact At|]. now apply H. Qed.
Lemma tok_leaf_word t l k : tok_word t k -> leaf_words l [k] = true -> tok_leaf t l.
Proof. intros Hk H w T. right. exists [k]. split; [exact H|]. apply ph_one, (Hk w T). Qed.
Lemma seg_over k1 k2 k3 S a S1 b S2 c S3 : seg k1 S a S1 -> seg k2 S1 b S2 -> seg k3 S2 c S3 -> seg (k1 ++ k2 ++ k3) S (join c a) S3.
Proof.
  intros HA HB HC. pose proof (seg_pair _ _ _ _ _ _ _ _ HB HC eq_refl) as HD. pose proof (seg_pair _ _ _ _ _ _ _ _ HA HD eq_refl) as HE.
  replace (join c a) with (fst a, snd c); [exact HE|].
  pose proof (proj1 (proj1 (kwat_wspan _ _ (g_kw _ _ _ _ HA)))). pose proof (proj1 (proj1 (kwat_wspan _ _ (g_kw _ _ _ _ HB)))).
  pose proof (proj1 (proj1 (kwat_wspan _ _ (g_kw _ _ _ _ HC)))).
  pose proof (gap_at_le _ _ _ (g_gap _ _ _ _ HA)). pose proof (gap_at_le _ _ _ (g_gap _ _ _ _ HB)).
  pose proof (g_fst _ _ _ _ HB). pose proof (g_fst _ _ _ _ HC). unfold join. f_equal; lia.
Qed.
Lemma ok_leaf b l s : leaf_at l s -> Forall (ok b) [ALeaf l s].
Proof. intros H. constructor; [exact H|constructor]. Qed.
(** Tables of keywords. *)
Definition words_ok {A} (f : A -> leaf) (tbl : list (string * A)) : bool := forallb (fun p => leaf_words (f (snd p)) [fst p]) tbl.
Lemma kw_assoc_in A (tbl : list (string * A)) t k c : kw_assoc tbl t = Some (k, c) -> In (k, c) tbl.
Proof.
  induction tbl as [|[k' c'] tbl IH]; cbn; [discriminate|]. destruct (is_kw t k'); [|auto]. intros H. injection H as -> ->. auto.
Qed.
Lemma kw_assoc_words A (f : A -> leaf) tbl t k c : kw_assoc tbl t = Some (k, c) -> words_ok f tbl = true -> leaf_words (f c) [k] = true.
Proof. intros H1 H2. apply kw_assoc_in in H1. unfold words_ok in H2. rewrite forallb_forall in H2. exact (H2 _ H1). Qed.

(** Consuming. *)
Lemma step_consume_seg U (k : span -> prog U) Q E S : cx E S -> is_eof (tk S) = false ->
  (forall S' s, cx E S' -> m S' + 1 <= m S -> AA S <= AA S' -> wspan src s -> tseg S s S' -> wp (k s) Q (fpost E) S') ->
  wp (bind consume k) Q (fpost E) S.
Proof.
  intros C He H. eapply step_consume; [exact C|]. intros S' C' _ M A G. rewrite He in M. apply H; auto; [apply wf_wspan, C|].
  constructor; auto. apply (w_tok false), C.
Qed.
Lemma seg_sp ks S1 S a S' : seg ks S1 a S' -> sp S1 = sp S -> seg ks S a S'.
Proof. intros [A1 A2 A3] E. constructor; auto. congruence. Qed.
Lemma step_kw U k (f : span -> prog U) Q E S : cx E S ->
  (forall S' s, cx E S' -> m S' + 1 <= m S -> AA S <= AA S' -> wspan src s -> seg [k] S s S' -> wp (f s) Q (fpost E) S') ->
  wp (bind (consume_keyword k) f) Q (fpost E) S.
Proof.
  intros C H. apply wp_bind. apply step_token. destruct (tk S) eqn:Et; try (now apply wp_expected_failure).
  destruct (kw_eqb k0 (KW k)) eqn:Ek; [|now apply wp_expected_failure].
  apply step_span. eapply step_lint_caps; [exact C|eapply wf_keyword; [apply C|exact Et|eauto]|]. intros S' C' _ M1 N1 A1 T1 P1.
  change consume with (bind consume Ret). eapply step_consume_seg; [exact C'|now rewrite T1, Et|]. intros S2 s C2 M2 A2 Hv Hs.
  apply wp_ret. apply H; auto; try lia. eapply seg_sp; [|exact P1]. apply tseg_seg; auto. rewrite T1, Et.
  apply kw_tok_word. exact Ek.
Qed.
Lemma step_kws_from U ks (f : span -> prog U) Q E S0 : forall k0 s S, cx E S -> seg k0 S0 s S -> wspan src s ->
  (forall S' s, cx E S' -> m S' <= m S -> AA S <= AA S' -> wspan src s -> seg (k0 ++ ks) S0 s S' -> wp (f s) Q (fpost E) S') ->
  wp (bind (consume_keywords_from s ks) f) Q (fpost E) S.
Proof.
  induction ks as [|k ks IH]; intros k0 s S C Hs Hv H; cbn [consume_keywords_from].
  - apply H; auto. now rewrite app_nil_r.
  - apply bind_bind. eapply step_kw; [exact C|]. intros S1 s1 C1 M1 A1 V1 G1.
    eapply (IH (k0 ++ [k])); [exact C1|eapply seg_joinr; eauto|now apply wspan_join|].
    intros S2 s2 C2 M2 A2 V2 G2. apply H; auto; try lia. now rewrite <- app_assoc in G2.
Qed.
Lemma step_kws U k ks (f : span -> prog U) Q E S : cx E S ->
  (forall S' s, cx E S' -> m S' + 1 <= m S -> AA S <= AA S' -> wspan src s -> seg (k :: ks) S s S' -> wp (f s) Q (fpost E) S') ->
  wp (bind (consume_keywords (k :: ks)) f) Q (fpost E) S.
Proof.
  intros C H. cbn [consume_keywords]. apply bind_bind. eapply step_kw; [exact C|]. intros S1 s1 C1 M1 A1 V1 G1.
  eapply step_kws_from; [exact C1|exact G1|exact V1|]. intros S2 s2 C2 M2 A2 V2 G2. apply H; auto; lia.
Qed.
Lemma step_skip_kw U k (f : option span -> prog U) Q E S : cx E S ->
  (forall S' a, cx E S' -> m S' + dopt a <= m S -> AA S <= AA S' -> Forall (ok false) (atoms a) -> oseg k S a S' -> wp (f a) Q (fpost E) S') ->
  wp (bind (skip_keyword k) f) Q (fpost E) S.
Proof.
  intros C H. unfold skip_keyword. apply bind_bind, step_token. destruct (is_kw (tk S) k) eqn:E1.
  - pose proof (kw_tok_word _ _ E1) as Hk. apply is_kw_inv in E1 as [v E1]. apply wp_bind, wp_try. unfold consume_keyword. apply step_token. rewrite E1. cbn [kw_eqb].
    rewrite String.eqb_refl. apply step_span.
    eapply step_lint_caps; [exact C|eapply wf_keyword; [apply C|exact E1|exists k; apply String.eqb_refl]|]. intros S' C' _ M1 N1 A1 T1 P1.
    change consume with (bind consume Ret). eapply step_consume; [exact C'|]. intros S2 C2 _ M2 A2 G2. rewrite T1, E1 in M2. cbn in M2.
    apply wp_ret, wp_ret. apply H; auto; [cbn [dopt]; lia|lia|apply (ok_span false), wf_wspan, C'|]. rewrite P1 in *.
    apply (tseg_seg S); [|rewrite E1 in *; exact Hk]. constructor; auto. apply (w_tok false), C.
  - apply H; auto; [cbn [dopt]; lia|constructor|split; reflexivity].
Qed.
End Seg.
