(** The data of COPY ... FROM STDIN: Lexer::read_from_stdin (src/lexer.rs:169-220). *)
From Verif Require Export LexerFacts.
Local Open Scope list_scope.

(** Specification: the data ends with a line consisting of backslash and period, that is
    with NL, backslash, period and then NL or the end of the input. *)
Definition at_end_line (t : text) : Prop :=
  exists r, t = 10%N :: 92%N :: 46%N :: r /\ (r = [] \/ exists r', r = 10%N :: r').
(** No line of [t] before its remainder [e] is an end line. *)
Definition first_end (d e : text) : Prop :=
  forall d1 d2, d = d1 ++ d2 -> d2 <> [] -> ~ at_end_line (d2 ++ e).

Lemma first_end_cons c d e : ~ at_end_line (c :: d ++ e) -> first_end d e -> first_end (c :: d) e.
Proof.
  intros H1 H2 d1 d2 E N. destruct d1 as [|x d1]; cbn in E.
  - subst d2. exact H1.
  - injection E as <- E. now apply (H2 d1).
Qed.
Lemma not_end_nl c t : c <> 10%N -> ~ at_end_line (c :: t).
Proof. intros H (r & E & _). congruence. Qed.
Definition scan_ok (r : text) (pos : nat) (x : option nat * (text * nat)) : Prop :=
  let '(i, (r', pos')) := x in
  match i with
  | Some i => exists d t, r = d ++ 10%N :: 92%N :: 46%N :: t /\ i = pos + blen d /\
      (t = r' /\ r' = [] \/ t = 10%N :: r') /\ pos' + blen r' = pos + blen r /\ first_end d (10%N :: 92%N :: 46%N :: t)
  | None => r' = [] /\ pos' = pos + blen r /\ first_end r []
  end.
Lemma scan_ok_cons c r pos x : ~ at_end_line (c :: r) -> scan_ok r (pos + utf8_len c) x -> scan_ok (c :: r) pos x.
Proof.
  destruct x as [[i|] [r' pos']]; cbn -[utf8_len]; intros H.
  - intros (d & t & -> & -> & T & P & F). exists (c :: d), t. split; [reflexivity|]. cbn -[utf8_len]. split; [lia|]. split; [exact T|].
    split; [cbn -[utf8_len] in *; lia|]. apply first_end_cons; auto.
  - intros (-> & -> & F). split; [reflexivity|]. split; [lia|]. apply first_end_cons; [now rewrite app_nil_r|exact F].
Qed.
Lemma scan_stdin_spec : forall n r pos, length r <= n -> scan_ok r pos (scan_stdin r pos).
Proof.
  assert (F0 : forall e, first_end [] e).
  { intros e d1 d2 E N. symmetry in E. apply app_eq_nil in E as [_ ->]. congruence. }
  induction n as [|n IH]; intros r pos L.
  { destruct r; [|cbn in L; lia]. cbn. auto. }
  destruct r as [|c r1]; [cbn; auto|]. cbn [length] in L. cbn [scan_stdin].
  destruct (N.eqb_spec c 10); [|apply scan_ok_cons; [now apply not_end_nl|apply IH; lia]]. subst c.
  destruct r1 as [|d r2].
  { cbn -[utf8_len]. split; [reflexivity|]. split; [lia|]. apply first_end_cons; [|apply F0]. cbn. intros (r & E & _). discriminate. }
  destruct (N.eqb_spec d 92).
  2: { apply scan_ok_cons; [|apply IH; cbn in *; lia]. intros (r & E & _). congruence. }
  subst d. destruct r2 as [|e r3].
  { cbn -[utf8_len]. split; [reflexivity|]. split; [lia|]. apply first_end_cons; [cbn; intros (r & E & _); discriminate|]. apply first_end_cons; [|apply F0]. now apply not_end_nl. }
  destruct (N.eqb_spec e 46).
  2: { apply scan_ok_cons; [intros (r & E & _); congruence|]. apply scan_ok_cons; [now apply not_end_nl|]. apply IH. cbn in *; lia. }
  subst e. destruct r3 as [|f r4].
  { cbn -[utf8_len]. exists [], []. repeat split; try (cbn; lia); auto. }
  destruct (N.eqb_spec f 10).
  - subst f. cbn -[utf8_len]. exists [], (10%N :: r4). repeat split; try (cbn -[utf8_len]; lia); auto.
  - apply scan_ok_cons; [|do 2 (apply scan_ok_cons; [now apply not_end_nl|]); apply IH; cbn in *; lia].
    intros (r & E & [->|[r' ->]]); congruence.
Qed.

(** What [read_from_stdin] does: skip blanks other than NL, then at most one NL; the data
    goes up to and including the NL before the end line, or to the end of the input. *)
Definition blanks (w : text) : Prop := Forall (fun c => c = 32 \/ c = 9 \/ c = 12 \/ c = 13)%N w.
Inductive stdin_at (l : lex) : text -> span -> lex -> Prop :=
| sd_none w l' : adv l w l' -> blanks w -> l_rest l' = [] ->
    stdin_at l [] (blen (l_src l), blen (l_src l)) l'
| sd_end w nl d e sp l' : (* the end line was found *)
    adv l (w ++ nl ++ d ++ 92%N :: 46%N :: e) l' -> blanks w -> at_span (l_src l) sp d ->
    fst sp = l_pos l + blen w + blen nl ->
    (nl = [] /\ (exists c d', d = c :: d' /\ c <> 10%N) \/ nl = [10%N]) ->
    (exists d', nl ++ d = d' ++ [10%N] /\ first_end d' (10%N :: 92%N :: 46%N :: e ++ l_rest l')) ->
    (e = [] /\ l_rest l' = [] \/ e = [10%N]) ->
    stdin_at l d sp l'
| sd_eof w nl d sp l' :
    adv l (w ++ nl ++ d) l' -> blanks w -> at_span (l_src l) sp d -> l_rest l' = [] ->
    fst sp = l_pos l + blen w + blen nl ->
    (nl = [] /\ (exists c d', d = c :: d' /\ c <> 10%N) \/ nl = [10%N]) -> first_end (nl ++ d) [] ->
    stdin_at l d sp l'.
Lemma stdin_at_adv l d sp l' : stdin_at l d sp l' -> exists w, adv l w l'.
Proof. intros []; eauto. Qed.
Theorem read_from_stdin_spec l : lwf l ->
  exists d sp l', read_from_stdin l = LOk (d, sp) l' /\ stdin_at l d sp l'.
Proof.
  intros W. unfold read_from_stdin.
  destruct (bump_while_spec (fun c => negb (c =? 10)%N && is_ascii_whitespace c) l) as (w & A & F & P).
  set (l1 := bump_while _ l) in *. clearbody l1.
  assert (B : blanks w).
  { eapply Forall_impl; [|exact F]. intros c. unfold is_ascii_whitespace. rewrite andb_true_iff, !orb_true_iff, !N.eqb_eq, negb_true_iff, N.eqb_neq. tauto. }
  assert (W1 : lwf l1) by (eapply adv_lwf; eauto). destruct A as (A1 & A2 & A3).
  cbv zeta. destruct (peekc l1) as [c|] eqn:Ec.
  - apply peekc_some in Ec as [r Er]. 
    pose proof (scan_stdin_spec _ (l_rest l1) (l_pos l1) (le_n _)) as H.
    destruct (scan_stdin (l_rest l1) (l_pos l1)) as [i [r' pos']]. cbn [scan_ok] in H.
    destruct W1 as (pre & E1 & E2).
    assert (X : forall nl x, l_rest l1 = nl ++ x -> (if (c =? 10)%N then l_pos l1 + 1 else l_pos l1) = l_pos l1 + blen nl ->
       forall y z, x = y ++ z -> lex_s (mkLex (l_src l1) r' pos') (if (c =? 10)%N then l_pos l1 + 1 else l_pos l1) (l_pos l1 + blen nl + blen y) = Some y).
    { intros nl x Hx -> y z ->. unfold lex_s. cbn [l_src]. rewrite E1, Hx, E2.
      replace (pre ++ nl ++ y ++ z) with ((pre ++ nl) ++ y ++ z) by now rewrite <- !app_assoc. rewrite <- blen_app. apply slice_app. }
    destruct i as [i|].
    + destruct H as (d & t & H1 & -> & T & Hp & Fe).
      assert (G : exists nl d2, d ++ [10%N] = nl ++ d2 /\ (if (c =? 10)%N then l_pos l1 + 1 else l_pos l1) = l_pos l1 + blen nl /\
         (nl = [] /\ (exists c d', d2 = c :: d' /\ c <> 10%N) \/ nl = [10%N])).
      { destruct (N.eqb_spec c 10).
        - subst c. exists [10%N]. destruct d as [|x d]; [exists []; auto|]. rewrite Er in H1. injection H1 as <- _. exists (d ++ [10%N]). auto.
        - exists [], (d ++ [10%N]). split; [reflexivity|]. split; [cbn; lia|]. left. split; [reflexivity|].
          destruct d as [|x d]; rewrite Er in H1; injection H1 as -> _; [congruence|]. cbn. eauto. }
      destruct G as (nl & d2 & G1 & G2 & G3).
      assert (H1' : l_rest l1 = nl ++ d2 ++ 92%N :: 46%N :: t).
      { rewrite H1. replace (d ++ 10%N :: 92%N :: 46%N :: t) with ((d ++ [10%N]) ++ 92%N :: 46%N :: t) by now rewrite <- app_assoc.
        rewrite G1. now rewrite <- app_assoc. }
      assert (BL : l_pos l1 + blen d + 1 = l_pos l1 + blen nl + blen d2).
      { apply (f_equal blen) in G1. rewrite !blen_app in G1. cbn in G1. lia. }
      rewrite BL, (X nl (d2 ++ 92%N :: 46%N :: t) H1' G2 d2 (92%N :: 46%N :: t) eq_refl).
      eexists d2, _, _. split; [reflexivity|].
      assert (TE : exists e, t = e ++ r' /\ (e = [] /\ r' = [] \/ e = [10%N])).
      { destruct T as [[-> ->]| ->]; [exists []|exists [10%N]]; auto. }
      destruct TE as (e & -> & TE).
      eapply (sd_end _ w nl d2 e).
      * split; [cbn; congruence|]. cbn [l_rest l_pos]. split.
        -- rewrite A2, H1'. now rewrite <- !app_assoc.
        -- rewrite H1' in Hp. rewrite A3 in Hp. repeat (rewrite ?blen_app in *; cbn -[utf8_len] in * ). lia.
      * exact B.
      * exists (pre ++ nl), (92%N :: 46%N :: e ++ r'). rewrite <- A1, E1, H1'. split; [now rewrite <- !app_assoc|]. rewrite blen_app. cbn [fst snd]. rewrite G2. lia.
      * cbn [fst]. rewrite G2. lia.
      * exact G3.
      * exists d. split; [now rewrite <- G1|exact Fe].
      * exact TE.
    + destruct H as (-> & -> & Fe).
      assert (G : exists nl d2, l_rest l1 = nl ++ d2 /\ (if (c =? 10)%N then l_pos l1 + 1 else l_pos l1) = l_pos l1 + blen nl /\
         (nl = [] /\ (exists c d', d2 = c :: d' /\ c <> 10%N) \/ nl = [10%N])).
      { rewrite Er. destruct (N.eqb_spec c 10).
        - subst c. exists [10%N], r. auto.
        - exists [], (c :: r). split; [reflexivity|]. split; [cbn; lia|]. left. eauto. }
      destruct G as (nl & d2 & G1 & G2 & G3).
      assert (BL : blen (l_src l1) = l_pos l1 + blen nl + blen d2) by (rewrite E1, G1, E2, !blen_app; lia).
      cbn [l_src]. rewrite BL, (X nl d2 G1 G2 d2 [] (eq_sym (app_nil_r _))).
      eexists d2, _, _. split; [reflexivity|]. eapply (sd_eof _ w nl d2).
      * split; [cbn; congruence|]. cbn [l_rest l_pos]. split.
        -- rewrite A2, G1. now rewrite <- !app_assoc, app_nil_r.
        -- rewrite G1, A3, !blen_app. lia.
      * exact B.
      * exists (pre ++ nl), []. rewrite <- A1, E1, G1. split; [now rewrite <- !app_assoc, app_nil_r|]. rewrite blen_app. cbn [fst snd]. rewrite G2. lia.
      * reflexivity.
      * cbn [fst]. rewrite G2. lia.
      * exact G3.
      * now rewrite <- G1.
  - apply peekc_none in Ec. exists [], (blen (l_src l), blen (l_src l)), l1. split.
    + unfold lex_s. replace (l_src l1) with (l_src l1 ++ [] ++ []) at 1 by now rewrite !app_nil_r.
      replace (blen (l_src l1)) with (blen (l_src l1) + blen []) at 2 by (cbn; lia). rewrite slice_app. now rewrite A1.
    + eapply sd_none; [split; [exact A1|split; [exact A2|exact A3]]|exact B|exact Ec].
Qed.

(** The data [d] at [sp], as a property of the source: it is preceded by blanks other than
    NL and at most one NL (one, unless the first character is something else), and goes up to
    the first end line or to the end of the input. *)
Definition stdin_block (src : text) (d : text) (sp : span) : Prop :=
  exists pre w nl rest, src = pre ++ w ++ nl ++ d ++ rest /\ sp = (blen (pre ++ w ++ nl), blen (pre ++ w ++ nl) + blen d) /\
    blanks w /\ (nl = [10%N] \/ nl = [] /\ forall c d', d = c :: d' -> c <> 10%N) /\
    ((exists d' e, nl ++ d = d' ++ [10%N] /\ rest = 92%N :: 46%N :: e /\ at_end_line (10%N :: rest) /\ first_end d' (10%N :: rest)) \/
     (rest = [] /\ first_end (nl ++ d) [])).
Lemma at_span_pos src sp pre d rest : src = pre ++ d ++ rest -> at_span src sp d -> fst sp = blen pre -> sp = (blen pre, blen pre + blen d).
Proof. intros _ (p & q & _ & E2 & E3) E. destruct sp as [a b]. cbn in *. f_equal; lia. Qed.
Lemma stdin_at_block l d sp l' : lwf l -> stdin_at l d sp l' -> stdin_block (l_src l) d sp.
Proof.
  intros (pre & E1 & E2) [w l1 (A1 & A2 & A3) B R|w nl d1 e sp1 l1 (A1 & A2 & A3) B At F N D En|w nl d1 sp1 l1 (A1 & A2 & A3) B At R F N D].
  - exists pre, w, [], []. rewrite R, app_nil_r in A2. split; [rewrite E1, A2, !app_nil_r; reflexivity|].
    split; [rewrite E1, A2, !app_nil_r; cbn; now rewrite Nat.add_0_r|]. split; [exact B|]. split; [right; split; [reflexivity|discriminate]|].
    right. split; [reflexivity|]. intros d1 d2 X Y. destruct d1, d2; try discriminate. congruence.
  - assert (S1 : l_src l = (pre ++ w ++ nl) ++ d1 ++ 92%N :: 46%N :: e ++ l_rest l1).
    { rewrite E1, A2. rewrite <- !app_assoc. reflexivity. }
    exists pre, w, nl, (92%N :: 46%N :: e ++ l_rest l1). split; [rewrite S1, <- !app_assoc; reflexivity|].
    split; [eapply at_span_pos; [exact S1|exact At|rewrite F, E2, !blen_app; lia]|]. split; [exact B|]. split.
    + destruct N as [[-> (c & d' & -> & Hc)]|N]; [right|now left]. split; [reflexivity|]. intros c' d'' X. now injection X as <- _.
    + left. destruct D as (d' & D1 & D2). exists d', (e ++ l_rest l1). repeat split; auto. exists (e ++ l_rest l1). split; [reflexivity|].
      destruct En as [[-> R]|En]; [left; now rewrite R|right; rewrite En; cbn; eauto].
  - assert (S1 : l_src l = (pre ++ w ++ nl) ++ d1 ++ []).
    { rewrite E1, A2, R. rewrite <- !app_assoc. reflexivity. }
    exists pre, w, nl, []. split; [rewrite S1, <- !app_assoc; reflexivity|].
    split; [eapply at_span_pos; [exact S1|exact At|rewrite F, E2, !blen_app; lia]|]. split; [exact B|]. split.
    + destruct N as [[-> (c & d' & -> & Hc)]|N]; [right|now left]. split; [reflexivity|]. intros c' d'' X. now injection X as <- _.
    + right. split; auto.
Qed.
