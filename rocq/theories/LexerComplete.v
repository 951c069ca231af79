(** Completeness of the lexer: text that spells a token is lexed as that token. *)
From Verif Require Export LexerFacts.
Local Open Scope string_scope.
Local Open Scope list_scope.

Ltac pairs := repeat match goal with
  | |- (_, _) = (_, _) => f_equal | |- Some _ = Some _ => f_equal end; try lia.

(** ** Completeness: text that spells a token is lexed as that token *)
Lemma next_token_f_mono n : forall l r, next_token_f n l = Some r -> forall m, n <= m -> next_token_f m l = Some r.
Proof.
  induction n as [|n IH]; intros l r H m L; [discriminate|]. destruct m as [|m]; [lia|].
  cbn [next_token_f] in *. destruct (l_rest l) as [|c0 r0]; [easy|].
  destruct (lex_char _ _ _) as [[t|] l'|w]; try easy. eapply IH; eauto. lia.
Qed.
Lemma next_token_eq l : lwf l ->
  next_token l = match l_rest l with
                 | [] => LOk (TEof, (blen (l_src l), blen (l_src l))) l
                 | c :: _ => match lex_char (l_pos l) c (bump l) with
                             | LPanic w => LPanic w
                             | LOk None l' => next_token l'
                             | LOk (Some t) l' => LOk (t, (l_pos l, l_pos l')) l'
                             end
                 end.
Proof.
  intros W. unfold next_token at 1. cbn [next_token_f].
  destruct (l_rest l) as [|c r] eqn:E; [easy|].
  pose proof (lex_char_spec l c r W E) as S.
  destruct (lex_char (l_pos l) c (bump l)) as [[t|] l'|w] eqn:El; [|clear S|easy].
  - destruct S as (w & A & _). now rewrite (peek_pos_pos _ (adv_lwf _ _ _ W A)).
  - destruct (lex_char_src _ _ _ _ _ W E El) as (W' & Es & Ll). rewrite E in Ll.
    destruct (next_token_f_spec (S (length (l_rest l'))) l' W') as (r' & Er & _); [lia|].
    unfold next_token. rewrite Er. erewrite (next_token_f_mono _ _ _ Er); [easy|lia].
Qed.

(** The state after [w] has been read. *)
Definition after (l : lex) (w r : text) : lex := mkLex (l_src l) r (l_pos l + blen w).
Lemma after_adv l w r : l_rest l = w ++ r -> adv l w (after l w r).
Proof. intros E. repeat split; auto. Qed.
Lemma adv_after l w l' : adv l w l' -> l' = after l w (l_rest l').
Proof. intros (A & B & C). unfold after. rewrite <- C, <- A. now destruct l'. Qed.
Lemma bump_after l c r : l_rest l = c :: r -> bump l = after l [c] r.
Proof. intros E. unfold bump, after. rewrite E. cbn. now rewrite Nat.add_0_r. Qed.
Lemma after_after l w r w' r' : after (after l w r) w' r' = after l (w ++ w') r'.
Proof. unfold after. cbn. now rewrite blen_app, Nat.add_assoc. Qed.
Lemma peek_is_after l w r c : peek_is (after l w r) c = match r with d :: _ => (d =? c)%N | [] => false end.
Proof. unfold peek_is, peekc. cbn. now destruct r. Qed.
Lemma peekc_after l w r : peekc (after l w r) = match r with d :: _ => Some d | [] => None end.
Proof. unfold peekc. cbn. now destruct r. Qed.
Lemma bump_after_cons l w c r : bump (after l w (c :: r)) = after l (w ++ [c]) r.
Proof. unfold bump, after. cbn. rewrite blen_app. cbn. f_equal. lia. Qed.

Lemma take_while_complete p w r pos : Forall (fun c => p c = true) w ->
  match r with c :: _ => p c = false | [] => True end ->
  take_while p (w ++ r) pos = (r, pos + blen w).
Proof.
  intros F N. revert pos. induction F as [|c w Hc F IH]; intros pos; cbn.
  - rewrite Nat.add_0_r. destruct r; cbn; [easy|]. now rewrite N.
  - rewrite Hc, IH. f_equal. lia.
Qed.
Lemma bump_while_after p l w w' r : Forall (fun c => p c = true) w' ->
  match r with c :: _ => p c = false | [] => True end ->
  bump_while p (after l w (w' ++ r)) = after l (w ++ w') r.
Proof.
  intros F N. unfold bump_while, after. cbn. rewrite (take_while_complete p w' r); auto.
  rewrite blen_app. f_equal. lia.
Qed.
Lemma skip_line_complete body nl r pos : Forall (fun c => ~ newline c) body -> newline nl ->
  skip_line (body ++ nl :: r) pos = (r, pos + blen (body ++ [nl])).
Proof.
  intros F N. revert pos. induction F as [|c w Hc F IH]; intros pos; cbn.
  - apply is_nl_newline in N. rewrite N. f_equal. lia.
  - rewrite <- is_nl_newline in Hc. apply not_true_is_false in Hc. rewrite Hc, IH. f_equal. lia.
Qed.
Lemma skip_line_open body pos : Forall (fun c => ~ newline c) body ->
  skip_line body pos = ([], pos + blen body).
Proof.
  intros F. revert pos. induction F as [|c w Hc F IH]; intros pos; cbn.
  - f_equal. lia.
  - rewrite <- is_nl_newline in Hc. apply not_true_is_false in Hc. rewrite Hc, IH. f_equal. lia.
Qed.
Lemma skip_block_complete body r : ~ ends_comment (body ++ txt "*") -> forall pos,
  skip_block (body ++ txt "*/" ++ r) pos = (true, (r, pos + blen (body ++ txt "*/"))).
Proof.
  induction body as [|c body IH]; intros N pos.
  - cbn. pairs.
  - cbn [app] in N. rewrite ends_comment_cons in N.
    assert (N' : ~ ends_comment (body ++ txt "*")) by tauto. specialize (IH N').
    assert (step : skip_block ((c :: body) ++ txt "*/" ++ r) pos = skip_block (body ++ txt "*/" ++ r) (pos + utf8_len c)).
    { cbn [app skip_block]. destruct (N.eqb_spec c 42) as [->|]; [|easy].
      destruct body as [|d body]; cbn [app txt]; [easy|].
      destruct (N.eqb_spec d 47) as [->|]; [|easy]. exfalso. apply N. left. split; [easy|]. cbn. eauto. }
    rewrite step, IH. cbn [app blen]. pairs.
Qed.
Lemma scan_string_complete q body r : q <> 92%N -> string_body q body -> ~ starts (fun c => c = q) r ->
  forall pos, scan_string q (body ++ q :: r) pos = (Some (pos + blen body), (r, pos + blen (body ++ [q]))).
Proof.
  intros Q B N. induction B as [|c t Hq Hb B IH|c t B IH|t B IH]; intros pos.
  - cbn [app scan_string]. destruct (N.eqb_spec q 92); [easy|]. rewrite N.eqb_refl. cbn.
    rewrite !Nat.add_0_r. destruct r as [|d r]; [easy|]. cbn in N. apply N.eqb_neq in N. now rewrite N.
  - cbn [app scan_string]. apply N.eqb_neq in Hq, Hb. rewrite Hq, Hb, IH. cbn [blen app].
    pairs.
  - cbn [app scan_string]. rewrite N.eqb_refl, IH. cbn [blen app]. pairs.
  - cbn [app scan_string]. apply N.eqb_neq in Q. rewrite Q, !N.eqb_refl, IH. cbn [blen app].
    pairs.
Qed.
Lemma match_letters_complete w : forall l v0 v r, upper v = w ->
  match_letters w (after l v0 (v ++ r)) = (true, after l (v0 ++ v) r).
Proof.
  induction w as [|x w IH]; intros l v0 v r U.
  - destruct v; [|discriminate]. cbn. now rewrite app_nil_r.
  - destruct v as [|c v]; [discriminate|]. injection U as U1 U2. cbn [match_letters app].
    rewrite peekc_after, U1, N.eqb_refl, bump_after_cons, IH by exact U2. now rewrite <- app_assoc.
Qed.
Lemma dollar_digits_complete ds r : ~ starts digit r -> Forall digit ds ->
  forall v pos, (dec_from v ds <= usize_max)%N -> dollar_digits v (ds ++ r) pos = Some (dec_from v ds, (r, pos + blen ds)).
Proof.
  intros N F. induction F as [|c ds Hc F IH]; intros v pos B.
  - cbn [app blen]. rewrite Nat.add_0_r. destruct r as [|d r]; [easy|]. cbn [dollar_digits].
    cbn in N. rewrite <- is_digit_digit in N. apply not_true_is_false in N. now rewrite N.
  - cbn [app dollar_digits]. apply is_digit_digit in Hc. rewrite Hc.
    change (dec_from v (c :: ds)) with (dec_from (v * 10 + (c - 48)) ds) in *.
    pose proof (dec_from_ge (v * 10 + (c - 48)) ds).
    destruct (N.ltb_spec usize_max (v * 10 + (c - 48))); [lia|]. rewrite IH by exact B. cbn [blen].
    pairs.
Qed.

Lemma starts_false p P r : (forall c, p c = true <-> P c) -> ~ starts P r ->
  match r with c :: _ => p c = false | [] => True end.
Proof. intros H N. destruct r; [easy|]. cbn in N. rewrite <- H in N. now apply not_true_is_false. Qed.

Definition lexes_as (l : lex) (w r : text) (t : tok) : Prop :=
  forall c w', w = c :: w' -> lex_char (l_pos l) c (bump l) = LOk (Some t) (after l w r).

Lemma with_s_all l w r f : lwf l -> l_rest l = w ++ r ->
  with_s (after l w r) (l_pos l) (peek_pos (after l w r)) f = LOk (f w) (after l w r).
Proof.
  intros W E. pose proof (after_adv l w r E) as A. unfold with_s.
  now rewrite (peek_pos_pos _ (adv_lwf _ _ _ W A)), (lex_s_adv _ _ _ W A).
Qed.

(** Every letter starts a word in [lex_char]. *)
Lemma lex_char_letter start c l : letter c ->
  lex_char start c l = if ((c =? 120) || (c =? 88))%N && peek_is l 39 then LPanic PHexLiteral else
    match simple_literal start l with LOk t l => LOk (Some t) l | LPanic w => LPanic w end.
Proof.
  intros C. assert (R : (65 <= c <= 90 \/ c = 95 \/ 97 <= c <= 122)%N) by (unfold letter in C; lia).
  unfold lex_char. apply is_alpha_letter in C. unfold is_ws, is_nl.
  repeat match goal with |- context[(c =? ?n)%N] =>
    lazymatch n with 120%N => fail | 88%N => fail | _ => 
    destruct (N.eqb_spec c n) as [|_]; [exfalso; lia|] end end.
  rewrite C. cbn [orb]. destruct (_ || _)%N; [|easy]. cbn [andb]. now destruct (peek_is l 39).
Qed.
Lemma lex_char_digit start c l : digit c ->
  lex_char start c l = match lex_number start l with LOk t l => LOk (Some t) l | LPanic w => LPanic w end.
Proof.
  intros C. unfold lex_char. pose proof C as C'. apply is_digit_digit in C. unfold digit in C'.
  assert (Al : is_alpha_ c = false).
  { apply not_true_is_false. rewrite is_alpha_letter. unfold letter. lia. }
  unfold is_ws, is_nl.
  repeat match goal with |- context[(c =? ?n)%N] =>
    destruct (N.eqb_spec c n) as [|_]; [exfalso; lia|] end.
  now rewrite Al, C.
Qed.

Lemma to_upper_at c : to_upper c = 64%N -> c = 64%N.
Proof.
  unfold to_upper. destruct ((97 <=? c) && (c <=? 122))%N eqn:B; intros H; [|exact H].
  apply andb_true_iff in B. rewrite !N.leb_le in B. lia.
Qed.
Lemma at_case w k k0 : upper w = 64%N :: 64%N :: k -> hd 0%N k = k0 /\ k <> [] ->
  exists v, w = 64%N :: 64%N :: v /\ upper v = k /\ exists d v', v = d :: v' /\ to_upper d = k0.
Proof.
  intros U [Hk Nk]. destruct w as [|a [|b v]]; try discriminate. injection U as Ua Ub U.
  apply to_upper_at in Ua, Ub. subst a b. exists v. split; [easy|]. split; [easy|].
  destruct v as [|d v']; [now subst k|]. exists d, v'. split; [easy|]. now subst k.
Qed.

Lemma lex_char_dollar start l : lex_char start 36 l =
  match match peekc l with
         | Some d =>
             if (d =? 36)%N then LOk TDoubleDollar (bump l)
             else if Lexer.between 49 57 d then
               match dollar_digits (d - 48)%N (l_rest (bump l)) (l_pos (bump l)) with
               | Some (v, (r, pos)) => LOk (TDollarArg v) (mkLex (l_src l) r pos)
               | None => LPanic PDollarOverflow
               end
             else LOk TInvalid l
         | None => LOk TInvalid l
         end with LOk t l => LOk (Some t) l | LPanic w => LPanic w end.
Proof. reflexivity. Qed.

Lemma lex_char_complete l w r t : lwf l -> l_rest l = w ++ r -> tok_text t w -> t <> TEof -> t <> TInvalid ->
  ends t r -> lexes_as l w r t.
Proof.
  intros W E T NE NI En c w' Hw.
  assert (word_case : word w -> ~ starts (fun c => letter c \/ digit c) r -> ~ (upper w = txt "X" /\ starts (chars "'") r) ->
     lex_char (l_pos l) c (bump l) = LOk (Some (TIdent w (kw_of_text (upper w)))) (after l w r)).
  { intros (c0 & w0 & Hw0 & Hc & Fw) En1 En2. rewrite Hw in Hw0. injection Hw0 as <- <-.
    rewrite lex_char_letter by exact Hc.
    assert (Hx : (((c =? 120) || (c =? 88))%N && peek_is (bump l) 39) = false).
    { apply not_true_is_false. rewrite andb_true_iff, orb_true_iff, !N.eqb_eq. intros [Hcx Hp].
      rewrite Hw in E. rewrite (bump_after l c (w' ++ r) E), peek_is_after in Hp.
      destruct w' as [|d w'].
      - apply En2. split; [|destruct r; [easy|]; apply N.eqb_eq in Hp; cbn; auto].
        rewrite Hw. destruct Hcx as [->| ->]; reflexivity.
      - cbn in Hp. apply N.eqb_eq in Hp. inversion Fw as [|? ? Hd]. subst d. unfold letter, digit in Hd. lia. }
    rewrite Hx. unfold simple_literal. rewrite Hw in E. rewrite (bump_after l c (w' ++ r) E).
    rewrite bump_while_after.
    - change ([c] ++ w') with (c :: w'). rewrite <- Hw in *. now rewrite with_s_all.
    - eapply Forall_impl'; [|exact Fw]. intros; symmetry; apply is_word_spec.
    - eapply starts_false; [apply is_word_spec|exact En1]. }
  assert (quote_case : forall q f v, utf8_len q = 1 -> q <> 92%N -> w = [q] ++ v ++ [q] -> string_body q v ->
     ~ starts (fun c => c = q) r -> lex_string q f (l_pos l) (bump l) = LOk (f v) (after l w r)).
  { intros q f v Hu Q Hv B St. unfold lex_string.
    assert (E' : l_rest l = q :: v ++ q :: r) by (rewrite E, Hv; cbn; now rewrite <- app_assoc).
    rewrite (bump_after _ _ _ E'). cbn [after l_rest l_pos l_src].
    rewrite (scan_string_complete q v r Q B St). unfold with_s.
    assert (A : adv l ([q] ++ v ++ [q]) (after l w r)) by (rewrite <- Hv; now apply after_adv).
    pose proof (lex_s_inner _ _ _ _ _ W A) as S. cbn [blen] in S. rewrite Nat.add_0_r, Hu in S.
    replace (l_pos l + blen [q] + blen v) with (l_pos l + 1 + blen v) by (cbn; lia).
    replace (mkLex (l_src l) r (l_pos l + blen [q] + blen (v ++ [q]))) with (after l w r).
    - now rewrite S.
    - unfold after. rewrite Hv, blen_app. f_equal. lia. }
  destruct t; try (exfalso; congruence);
  lazymatch goal with
  | En : ends (TIdent _ _) _ |- _ => idtac
  | En : ends (TFloat _) _ |- _ => idtac
  | En : ends (TInteger _) _ |- _ => idtac
  | En : ends (TSingleQuotedString _) _ |- _ => idtac
  | En : ends (TDoubleQuotedString _) _ |- _ => idtac
  | En : ends (TDollarArg _) _ |- _ => idtac
  | En : ends TAtAtGlobal _ |- _ => idtac
  | En : ends TAtAtSession _ |- _ => idtac
  | _ => clear word_case quote_case; cbn in T, En; try (destruct T as [T|T]); [..|];
      (rewrite T in *; cbn in E, Hw; injection Hw as <- <-; rewrite (bump_after _ _ _ E);
      cbv [lex_char is_ws is_nl N.eqb Pos.eqb orb andb tok1 tok2];
      rewrite ?peek_is_after, ?peekc_after, ?bump_after_cons;
      try (destruct r as [|d r]; [reflexivity|]); cbn in En; unfold chars in En; cbn in En;
      rewrite ?peek_is_after, ?bump_after_cons; cbn [N.eqb Pos.eqb];
      rewrite ?peek_is_after, ?bump_after_cons; cbn [N.eqb Pos.eqb];
      repeat match goal with |- context[(?e =? ?n)%N] => is_var e; destruct (N.eqb_spec e n) as [->|?]; [exfalso; tauto|] end;
      try reflexivity)
  end.
  - (* float *)
    cbn in T, En. destruct T as (<- & a & b & Hab & Fa & Fb & Hne).
    assert (Ds : forall t, Forall digit t -> Forall (fun c => is_digit c = true) t).
    { intros t. apply Forall_impl'. intros; symmetry; apply is_digit_digit. }
    assert (Nr : match r with c :: _ => is_digit c = false | [] => True end)
      by (eapply starts_false; [apply is_digit_digit|exact En]).
    destruct a as [|d a].
    + cbn in Hab. destruct Hne as [Hne|Hne]; [easy|]. destruct b as [|d b]; [easy|].
      pose proof Hab as Hab'. rewrite Hw in Hab. injection Hab as -> ->.
      assert (E' : l_rest l = 46%N :: (d :: b) ++ r) by (rewrite E, Hw; reflexivity).
      rewrite (bump_after _ _ _ E').
      assert (Dd : is_digit d = true) by (apply is_digit_digit; now inversion Fb).
      pose proof (bump_while_after is_digit l [46%N] (d :: b) r (Ds _ Fb) Nr) as Bw.
      cbv [lex_char is_ws is_nl N.eqb Pos.eqb orb andb tok1 tok2].
      change (is_alpha_ 46) with false. change (is_digit 46) with false. cbv iota.
      rewrite peekc_after. cbn [app]. rewrite Dd. cbn [app] in Bw. rewrite Bw, <- Hw. now rewrite with_s_all.
    + pose proof Hab as Hab'. rewrite Hw in Hab. injection Hab as -> ->.
      inversion Fa as [|? ? Hd Fa']. subst.
      assert (E' : l_rest l = d :: a ++ 46%N :: b ++ r).
      { rewrite E. cbn. rewrite <- !app_assoc. reflexivity. }
      rewrite lex_char_digit by exact Hd. unfold lex_number.
      rewrite (bump_after _ _ _ E'), bump_while_after; auto.
      rewrite peek_is_after. cbn [N.eqb Pos.eqb]. rewrite bump_after_cons, bump_while_after; auto.
      assert (Eq : (([d] ++ a) ++ [46%N]) ++ b = d :: a ++ txt "." ++ b).
      { cbn. now rewrite <- app_assoc. }
      rewrite Eq, with_s_all; auto.
  - (* identifier *)
    assert (k = QUOTED_IDENTIFIER \/ (w = t /\ word t /\ k = kw_of_text (upper t)) /\
      ~ starts (fun c => letter c \/ digit c) r /\ ~ (upper t = txt "X" /\ starts (chars "'") r)) as [->|(T' & En')].
    { destruct k; auto. }
    + cbn in T. destruct T as [T Qw].
      assert (E' : l_rest l = 96%N :: t ++ 96%N :: r) by (rewrite E, T; cbn; now rewrite <- app_assoc).
      rewrite T in Hw. injection Hw as <- _. rewrite (bump_after _ _ _ E').
      cbv [lex_char is_ws is_nl N.eqb Pos.eqb orb andb tok1 tok2]. change (is_alpha_ 96) with false. cbv iota.
      rewrite bump_while_after; [|eapply Forall_impl'; [|exact Qw]; intros; symmetry; apply is_quoted_word_spec|easy].
      rewrite peek_is_after. cbn [N.eqb Pos.eqb]. rewrite bump_after_cons. unfold with_s.
      assert (A : adv l ([96%N] ++ t ++ [96%N]) (after l w r)) by (change ([96%N] ++ t ++ [96%N]) with (96%N :: t ++ [96%N]); rewrite <- T; now apply after_adv).
      pose proof (lex_s_inner _ _ _ _ _ W A) as S. cbn [blen] in S. rewrite Nat.add_0_r in S.
      change (utf8_len 96) with 1 in S. cbn [after l_pos].
      replace (l_pos l + blen ([96%N] ++ t)) with (l_pos l + 1 + blen t) by (cbn; lia).
      rewrite <- app_assoc. change ([96%N] ++ t ++ [96%N]) with (96%N :: t ++ [96%N]). rewrite <- T. now rewrite S.
    + destruct T' as (<- & Wt & ->). apply word_case; tauto.
  - (* integer *)
    cbn in T, En. destruct T as (<- & Hne & F). rewrite Hw in E.
    assert (Hc : digit c) by (rewrite Hw in F; now inversion F).
    assert (Hf : Forall digit w') by (rewrite Hw in F; now inversion F).
    assert (Nd : match r with c :: _ => is_digit c = false | [] => True end).
    { destruct r; [easy|]. cbn in En. apply not_true_is_false. rewrite is_digit_digit. tauto. }
    rewrite lex_char_digit by exact Hc. unfold lex_number. rewrite (bump_after _ _ _ E), bump_while_after; auto.
    2: { eapply Forall_impl'; [|exact Hf]. intros; symmetry; apply is_digit_digit. }
    rewrite peek_is_after. assert (N46 : match r with d :: _ => (d =? 46)%N | [] => false end = false).
    { destruct r; [easy|]. cbn in En. apply N.eqb_neq. tauto. }
    rewrite N46. change ([c] ++ w') with (c :: w'). rewrite <- Hw in *. now rewrite with_s_all.
  - (* period *)
    change (is_alpha_ 46) with false. change (is_digit 46) with false. cbv iota.
    rewrite <- is_digit_digit in En. apply not_true_is_false in En. now rewrite En.
  - cbn in T, En. destruct T as [T B]. pose proof (quote_case 39%N TSingleQuotedString t eq_refl) as Q.
    rewrite T in Hw. injection Hw as <- _.
    cbv [lex_char is_ws is_nl N.eqb Pos.eqb orb andb tok1 tok2].
    change (is_alpha_ 39) with false. cbv iota. rewrite Q; auto. discriminate.
  - cbn in T, En. destruct T as [T B]. pose proof (quote_case 34%N TDoubleQuotedString t eq_refl) as Q.
    rewrite T in Hw. injection Hw as <- _.
    cbv [lex_char is_ws is_nl N.eqb Pos.eqb orb andb tok1 tok2].
    change (is_alpha_ 34) with false. cbv iota. rewrite Q; auto. discriminate.
  - (* dollar *)
    cbn [tok_text ends] in T, En. destruct T as (d & ds & T & Hd & Fd & Hv & Hm).
    assert (E' : l_rest l = 36%N :: d :: ds ++ r) by (rewrite E, T; reflexivity).
    rewrite T in Hw. injection Hw as <- _. rewrite (bump_after _ _ _ E').
    rewrite lex_char_dollar. rewrite peekc_after.
    destruct (N.eqb_spec d 36) as [->|_]; [lia|].
    assert (Hb : Lexer.between 49 57 d = true) by (unfold Lexer.between; rewrite andb_true_iff, !N.leb_le; exact Hd).
    rewrite Hb, bump_after_cons. cbn [after l_rest l_pos l_src].
    rewrite (dollar_digits_complete ds r En Fd); [|change (dec_from (d - 48) ds) with (dec_value (d :: ds)); rewrite Hv; exact Hm].
    change (dec_from (d - 48) ds) with (dec_value (d :: ds)). rewrite Hv. unfold after. rewrite T.
    cbn [l_src l_pos app txt blen]. do 2 f_equal. cbn. lia.
  - cbn in T. apply at_case with (k := txt "GLOBAL") (k0 := 71%N) in T; [|easy]. destruct T as (v & Hv & U & d & v' & -> & Ud).
    assert (E' : l_rest l = 64%N :: 64%N :: (d :: v') ++ r) by (rewrite E, Hv; reflexivity).
    rewrite Hv in Hw. injection Hw as <- _. rewrite (bump_after _ _ _ E').
    cbv [lex_char is_ws is_nl N.eqb Pos.eqb orb andb tok1 tok2]. rewrite peek_is_after. cbv [N.eqb Pos.eqb].
    rewrite bump_after_cons, peekc_after. cbn [app]. rewrite Ud. cbv [N.eqb Pos.eqb].
    change (d :: v' ++ r) with ((d :: v') ++ r). rewrite (match_letters_complete (txt "GLOBAL") l _ _ r U). now rewrite Hv.
  - cbn in T. apply at_case with (k := txt "SESSION") (k0 := 83%N) in T; [|easy]. destruct T as (v & Hv & U & d & v' & -> & Ud).
    assert (E' : l_rest l = 64%N :: 64%N :: (d :: v') ++ r) by (rewrite E, Hv; reflexivity).
    rewrite Hv in Hw. injection Hw as <- _. rewrite (bump_after _ _ _ E').
    cbv [lex_char is_ws is_nl N.eqb Pos.eqb orb andb tok1 tok2]. rewrite peek_is_after. cbv [N.eqb Pos.eqb].
    rewrite bump_after_cons, peekc_after. cbn [app]. rewrite Ud. cbv [N.eqb Pos.eqb].
    change (d :: v' ++ r) with ((d :: v') ++ r). rewrite (match_letters_complete (txt "SESSION") l _ _ r U). now rewrite Hv.
Qed.
