(** The sequence of tokens of a source, and what it means for it to be right. *)
From Verif Require Export LexerComplete.
Local Open Scope string_scope.
Local Open Scope list_scope.

(** Reading tokens until the end of the input, as [Parser::next] does
    (src/parser.rs:105-143 calls [Lexer::next_token] until [Eof]). *)
Fixpoint lex_all (n : nat) (l : lex) : option (list (tok * span) + panic) :=
  match n with
  | O => None
  | S n => match next_token l with
           | LPanic w => Some (inr w)
           | LOk (TEof, s) _ => Some (inl [(TEof, s)])
           | LOk ts l' => match lex_all n l' with
                          | Some (inl r) => Some (inl (ts :: r))
                          | o => o
                          end
           end
  end.
Definition tokens (src : text) : option (list (tok * span) + panic) :=
  lex_all (S (length src)) (lex_new src).

(** [ts] are the tokens of the text [src] that starts at offset [p]. *)
Inductive layout : nat -> text -> list (tok * span) -> Prop :=
| lay_eof p g : trivia_end g -> layout p g [(TEof, (p + blen g, p + blen g))]
| lay_tok p g w r t ts : trivia g -> w <> [] -> tok_text t w -> t <> TEof -> ends t r ->
    layout (p + blen g + blen w) r ts ->
    layout p (g ++ w ++ r) ((t, (p + blen g, p + blen g + blen w)) :: ts).

(** ** Reading past trivia *)
Lemma white_char start c l : white c -> lex_char start c l = LOk None l.
Proof. intros H. apply is_ws_white in H. unfold lex_char. now rewrite H. Qed.
Lemma skip_eq l r pos : mkLex (l_src l) r pos = after l [] r -> pos = l_pos l.
Proof. unfold after. cbn. intros H. injection H. lia. Qed.

Lemma lex_char_minus start l : lex_char start 45 l = if peek_is l 45 then
      let (r, pos) := skip_line (l_rest l) (l_pos l) in
      LOk None (mkLex (l_src l) r pos)
    else LOk (Some TMinus) l.
Proof. reflexivity. Qed.
Lemma lex_char_slash start l : lex_char start 47 l = if peek_is l 42 then
      let l' := bump l in
      match skip_block (l_rest l') (l_pos l') with
      | (true, (r, pos)) => LOk None (mkLex (l_src l) r pos)
      | (false, (r, pos)) => LOk (Some TInvalid) (mkLex (l_src l) r pos)
      end
    else if peek_is l 47 then
      let (r, pos) := skip_line (l_rest l) (l_pos l) in
      LOk None (mkLex (l_src l) r pos)
    else LOk (Some TDiv) l.
Proof. reflexivity. Qed.

(** Both line comments are read by one step. *)
Lemma line_step l o rest : o = txt "--" \/ o = txt "//" -> l_rest l = o ++ rest ->
  exists c, hd_error (l_rest l) = Some c /\
    lex_char (l_pos l) c (bump l) =
    let (r, pos) := skip_line rest (l_pos l + 2) in LOk None (mkLex (l_src l) r pos).
Proof.
  intros [-> | ->] E; cbn [txt app string_dec] in E; (eexists; split; [rewrite E; reflexivity|]);
    cbn in E; rewrite (bump_after _ _ _ E).
  - rewrite lex_char_minus, peek_is_after. cbn [after l_rest l_pos l_src blen app].
    cbn [N.eqb Pos.eqb skip_line is_nl orb]. change (utf8_len (N_of_ascii "-")) with 1.
    change (is_nl (N_of_ascii "-")) with false. cbv iota.
    change (utf8_len 45) with 1. replace (l_pos l + (1 + 0) + 1) with (l_pos l + 2) by lia. reflexivity.
  - rewrite lex_char_slash, !peek_is_after. cbn [after l_rest l_pos l_src blen app].
    cbn [N.eqb Pos.eqb skip_line is_nl orb]. change (utf8_len (N_of_ascii "/")) with 1.
    change (is_nl (N_of_ascii "/")) with false. cbv iota.
    change (utf8_len 47) with 1. replace (l_pos l + (1 + 0) + 1) with (l_pos l + 2) by lia. reflexivity.
Qed.

Lemma next_token_step l c l1 : lwf l -> hd_error (l_rest l) = Some c ->
  lex_char (l_pos l) c (bump l) = LOk None l1 -> next_token l = next_token l1.
Proof.
  intros W E H. rewrite (next_token_eq l W). destruct (l_rest l) as [|d r]; [easy|].
  injection E as ->. now rewrite H.
Qed.
Lemma after_lwf l w r : lwf l -> l_rest l = w ++ r -> lwf (after l w r).
Proof. intros W E. eapply adv_lwf; [exact W|]. now apply after_adv. Qed.

Lemma next_token_trivia g : trivia g -> forall l r, lwf l -> l_rest l = g ++ r ->
  next_token l = next_token (after l g r).
Proof.
  induction 1 as [|c t Hc T IH|o body nl t Ho Hb Hn T IH|body t Hb T IH]; intros l r W E.
  - cbn in E. unfold after. rewrite <- E. cbn. rewrite Nat.add_0_r. now destruct l.
  - cbn in E. rewrite (next_token_step l c (bump l) W); [|now rewrite E|now apply white_char].
    rewrite (bump_after _ _ _ E). rewrite (IH (after l [c] (t ++ r)) r); [|now apply after_lwf|reflexivity].
    now rewrite after_after.
  - assert (E' : l_rest l = o ++ body ++ nl :: (t ++ r)).
    { rewrite E. rewrite <- !app_assoc. reflexivity. }
    destruct (line_step l o _ Ho E') as (c & Hc & L).
    rewrite (skip_line_complete body nl (t ++ r)) in L by assumption.
    rewrite (next_token_step l c _ W Hc L).
    replace (mkLex (l_src l) (t ++ r) (l_pos l + 2 + blen (body ++ [nl]))) with (after l (o ++ body ++ [nl]) (t ++ r)).
    2: { unfold after. f_equal. rewrite blen_app. replace (blen o) with 2; [lia|].
         destruct Ho as [-> | ->]; reflexivity. }
    rewrite (IH _ r); [|apply after_lwf; [exact W|]; rewrite E', <- !app_assoc; reflexivity|reflexivity].
    rewrite after_after, <- !app_assoc. reflexivity.
  - assert (E' : l_rest l = 47%N :: 42%N :: body ++ txt "*/" ++ t ++ r).
    { rewrite E. rewrite <- !app_assoc. reflexivity. }
    assert (L : lex_char (l_pos l) 47 (bump l) = LOk None (after l (txt "/*" ++ body ++ txt "*/") (t ++ r))).
    { rewrite (bump_after _ _ _ E'), lex_char_slash, peek_is_after. cbn [N.eqb Pos.eqb]. cbv zeta.
      rewrite bump_after_cons. cbn [after l_rest l_pos l_src].
      rewrite (skip_block_complete body (t ++ r) Hb). unfold after. do 2 f_equal. rewrite !blen_app. cbn. lia. }
    assert (Hd : hd_error (l_rest l) = Some 47%N) by now rewrite E'.
    rewrite (next_token_step l 47%N _ W Hd L).
    rewrite (IH _ r); [|apply after_lwf; [exact W|]; rewrite E', <- !app_assoc; reflexivity|reflexivity].
    rewrite after_after, <- !app_assoc. reflexivity.
Qed.

Lemma next_token_eof g l : trivia_end g -> lwf l -> l_rest l = g ->
  next_token l = LOk (TEof, (blen (l_src l), blen (l_src l))) (after l g []).
Proof.
  intros T W E. assert (E0 : l_rest l = g ++ []) by now rewrite app_nil_r.
  destruct T as [t T|t o body T Ho Hb].
  - rewrite (next_token_trivia t T l [] W E0).
    rewrite next_token_eq by now apply after_lwf. reflexivity.
  - rewrite <- app_assoc in E0.
    rewrite (next_token_trivia t T l _ W E0). set (l1 := after l t ((o ++ body) ++ [])).
    assert (W1 : lwf l1) by (apply after_lwf; auto).
    assert (E1 : l_rest l1 = o ++ body) by (unfold l1; cbn; now rewrite app_nil_r).
    destruct (line_step l1 o body Ho E1) as (c & Hc & L).
    rewrite (skip_line_open body _ Hb) in L. rewrite (next_token_step l1 c _ W1 Hc L).
    assert (Hp : mkLex (l_src l1) [] (l_pos l1 + 2 + blen body) = after l (t ++ o ++ body) []).
    { unfold l1, after. cbn. f_equal. rewrite !blen_app. replace (blen o) with 2; [lia|].
      destruct Ho as [-> | ->]; reflexivity. }
    rewrite Hp. rewrite next_token_eq; [reflexivity|]. apply after_lwf; auto.
    rewrite <- app_assoc. exact E0.
Qed.

(** ** Completeness of [next_token] *)
Theorem next_token_complete l g w r t : lwf l -> l_rest l = g ++ w ++ r -> trivia g -> w <> [] ->
  tok_text t w -> t <> TEof -> t <> TInvalid -> ends t r ->
  next_token l = LOk (t, (l_pos l + blen g, l_pos l + blen g + blen w)) (after l (g ++ w) r).
Proof.
  intros W E T Nw Ht Ne Ni En. rewrite (next_token_trivia g T l _ W E).
  set (l1 := after l g (w ++ r)). assert (W1 : lwf l1) by now apply after_lwf.
  assert (E1 : l_rest l1 = w ++ r) by reflexivity.
  rewrite (next_token_eq l1 W1), E1. destruct w as [|c w']; [easy|]. cbn [app].
  rewrite (lex_char_complete l1 (c :: w') r t W1 E1 Ht Ne Ni En c w' eq_refl).
  unfold l1. rewrite after_after. cbn [after l_pos]. rewrite blen_app, Nat.add_assoc. reflexivity.
Qed.

(** ** The token sequence is a layout, and every valid layout is the token sequence *)
Lemma lex_all_layout n : forall l, lwf l -> length (l_rest l) < n ->
  exists o, lex_all n l = Some o /\
    match o with inl ts => layout (l_pos l) (l_rest l) ts | inr w => lex_panic (l_src l) w end.
Proof.
  induction n as [|n IH]; intros l W L; [lia|]. cbn [lex_all].
  pose proof (next_token_spec l W) as S.
  destruct (next_token l) as [[t sp] l'|w]; [|eauto].
  destruct S as [g w l1 t l' A1 T1 A2 Hw Ht Hn He|g l' A1 T1 Hr].
  - pose proof (adv_lwf _ _ _ W A1) as W1. pose proof (adv_lwf _ _ _ W1 A2) as W2.
    pose proof (adv_length _ _ _ A1) as L1. pose proof (adv_length _ _ _ A2) as L2.
    destruct (IH l' W2) as (o & Eo & Ho); [destruct w; [easy|]; cbn in L2; lia|].
    rewrite Eo. destruct A1 as (S1 & R1 & P1), A2 as (S2 & R2 & P2).
    exists match o with inl r => inl ((t, (l_pos l1, l_pos l')) :: r) | inr w => inr w end.
    split. { destruct o; [|now destruct t]. destruct t; easy. }
    destruct o as [ts|pw]; [|now rewrite <- S1, <- S2].
    rewrite R1, R2, P1, P2, P1. apply lay_tok; auto. now rewrite <- P1, <- P2.
  - eexists. split; [reflexivity|]. cbn.
    assert (P : blen (l_src l) = l_pos l + blen g).
    { destruct W as (pre & Ws & ->). rewrite Ws, blen_app. f_equal. destruct A1 as (_ & -> & _).
      now rewrite Hr, app_nil_r. }
    rewrite P. destruct A1 as (_ & -> & _). rewrite Hr, app_nil_r. now constructor.
Qed.

(** Every source has a token sequence or runs into one of the lexer's panics. *)
Theorem tokens_layout src :
  exists o, tokens src = Some o /\
    match o with inl ts => layout 0 src ts | inr w => lex_panic src w end.
Proof. apply (lex_all_layout (S (length src)) (lex_new src)); [apply lwf_new|cbn; lia]. Qed.

Lemma lex_all_complete n : forall l ts, lwf l -> layout (l_pos l) (l_rest l) ts ->
  (forall t s, In (t, s) ts -> t <> TInvalid) -> length (l_rest l) < n -> lex_all n l = Some (inl ts).
Proof.
  induction n as [|n IH]; intros l ts W Ly Ni L; [lia|]. cbn [lex_all].
  inversion Ly as [p g T Ep Eg Ets|p g w r t ts' T Nw Ht Ne En Ly' Ep Eg Ets]; subst.
  - rewrite (next_token_eof (l_rest l) l T W eq_refl).
    assert (P : blen (l_src l) = l_pos l + blen (l_rest l)).
    { destruct W as (pre & Ws & ->). now rewrite Ws, blen_app. }
    now rewrite P.
  - assert (Nt : t <> TInvalid) by (eapply Ni; now left).
    rewrite (next_token_complete l g w r t W (eq_sym Eg) T Nw Ht Ne Nt En).
    assert (R : lex_all n (after l (g ++ w) r) = Some (inl ts')).
    { apply IH; auto.
      - apply after_lwf; [easy|]. now rewrite <- app_assoc.
      - cbn. now rewrite blen_app, Nat.add_assoc.
      - intros. eapply Ni. right. eauto.
      - cbn. rewrite <- Eg, !app_length in L. destruct w; [easy|]. cbn in L. lia. }
    rewrite R. now destruct t.
Qed.
Theorem tokens_complete src ts : layout 0 src ts -> (forall t s, In (t, s) ts -> t <> TInvalid) ->
  tokens src = Some (inl ts).
Proof. intros. apply lex_all_complete; auto using lwf_new. Qed.

(** ** The lexer does not look at what precedes the current position *)
Definition shift (k : nat) (s : span) : span := (fst s + k, snd s + k).

Lemma take_while_shift p r k : forall pos, take_while p r (pos + k) =
  (fst (take_while p r pos), snd (take_while p r pos) + k).
Proof.
  induction r as [|c r IH]; intros pos; cbn; [easy|]. destruct (p c); [|easy].
  rewrite <- IH. f_equal. lia.
Qed.
Lemma take_while_ge p r : forall pos, pos <= snd (take_while p r pos).
Proof.
  induction r as [|c r IH]; intros pos; cbn; [easy|]. destruct (p c); [|easy].
  specialize (IH (pos + utf8_len c)). lia.
Qed.
Lemma skip_line_shift r k : forall pos, skip_line r (pos + k) =
  (fst (skip_line r pos), snd (skip_line r pos) + k).
Proof.
  induction r as [|c r IH]; intros pos; cbn; [easy|]. destruct (is_nl c); [cbn; f_equal; lia|].
  rewrite <- IH. f_equal. lia.
Qed.
Lemma skip_line_ge r : forall pos, pos <= snd (skip_line r pos).
Proof.
  induction r as [|c r IH]; intros pos; cbn; [easy|]. destruct (is_nl c); [cbn; lia|].
  specialize (IH (pos + utf8_len c)). lia.
Qed.
Lemma skip_block_shift k : forall r pos, skip_block r (pos + k) =
  (fst (skip_block r pos), (fst (snd (skip_block r pos)), snd (snd (skip_block r pos)) + k)).
Proof.
  induction r as [|c r IH]; intros pos; cbn [skip_block]; [easy|].
  assert (S : skip_block r (pos + k + utf8_len c) =
    (fst (skip_block r (pos + utf8_len c)), (fst (snd (skip_block r (pos + utf8_len c))), snd (snd (skip_block r (pos + utf8_len c))) + k))).
  { rewrite <- IH. f_equal. lia. }
  destruct (c =? 42)%N; [|exact S]. destruct r as [|d r2]; [cbn; pairs|].
  destruct (d =? 47)%N; [cbn; pairs|exact S].
Qed.
Lemma skip_block_ge : forall r pos, pos <= snd (snd (skip_block r pos)).
Proof.
  induction r as [|c r IH]; intros pos; cbn [skip_block]; [easy|].
  specialize (IH (pos + utf8_len c)).
  destruct (c =? 42)%N; [|lia]. destruct r as [|d r2]; [cbn; lia|]. destruct (d =? 47)%N; [cbn; lia|lia].
Qed.
Lemma scan_string_shift q k : forall n r pos, length r <= n -> scan_string q r (pos + k) =
  (option_map (fun i => i + k) (fst (scan_string q r pos)),
    (fst (snd (scan_string q r pos)), snd (snd (scan_string q r pos)) + k)).
Proof.
  induction n as [|n IH]; intros r pos L; (destruct r as [|c r]; [reflexivity|]); cbn in L; [lia|].
  assert (S : forall r p p', length r <= n -> p' = p + k -> scan_string q r p' =
   (option_map (fun i => i + k) (fst (scan_string q r p)),
    (fst (snd (scan_string q r p)), snd (snd (scan_string q r p)) + k))) by (intros; subst; now apply IH).
  cbn [scan_string]. destruct (c =? 92)%N.
  - destruct r as [|d r]; [cbn; pairs|]. cbn in L. apply S; lia.
  - destruct (c =? q)%N.
    + destruct r as [|d r]; [cbn; pairs|]. cbn in L. destruct (d =? q)%N; [apply S; lia|cbn; pairs].
    + apply S; lia.
Qed.
Lemma scan_string_ge q : forall n r pos, length r <= n ->
  pos <= snd (snd (scan_string q r pos)).
Proof.
  induction n as [|n IH]; intros r pos L; (destruct r as [|c r]; [cbn; easy|]); cbn in L; [lia|].
  assert (S : forall r p, length r <= n -> pos <= p -> pos <= snd (snd (scan_string q r p)))
    by (intros r0 p ? ?; specialize (IH r0 p); lia).
  cbn [scan_string]. destruct (c =? 92)%N.
  - destruct r as [|d r]; [cbn; lia|]. cbn in L. apply S; lia.
  - destruct (c =? q)%N.
    + destruct r as [|d r]; [cbn; lia|]. cbn in L. destruct (d =? q)%N; [apply S; lia|cbn; lia].
    + apply S; lia.
Qed.
Lemma dollar_digits_shift k : forall r v pos, dollar_digits v r (pos + k) =
  option_map (fun x => (fst x, (fst (snd x), snd (snd x) + k))) (dollar_digits v r pos).
Proof.
  induction r as [|c r IH]; intros v pos; cbn [dollar_digits]; [easy|].
  destruct (is_digit c); [|easy]. destruct (usize_max <? _)%N; [easy|]. rewrite <- IH. f_equal. lia.
Qed.
Lemma dollar_digits_ge : forall r v pos x, dollar_digits v r pos = Some x -> pos <= snd (snd x).
Proof.
  induction r as [|c r IH]; intros v pos x; cbn [dollar_digits]; [intros E; injection E as <-; easy|].
  destruct (is_digit c); [|intros E; injection E as <-; easy]. destruct (usize_max <? _)%N; [easy|].
  intros E. apply IH in E. lia.
Qed.
Lemma drop_bytes_pre p t i : drop_bytes (blen p + i) (p ++ t) = drop_bytes i t.
Proof.
  induction p as [|c p IH]; cbn [blen app]; [easy|]. rewrite <- IH.
  pose proof (utf8_len_pos c).
  destruct (utf8_len c + blen p + i) as [|n] eqn:E; [lia|]. cbn [drop_bytes].
  destruct (Nat.leb_spec (utf8_len c) (S n)); [|lia]. f_equal. lia.
Qed.

Section Shift.
Variables (pre pre' R : text) (k : nat).
Hypothesis Hk : blen pre' = blen pre + k.
Definition lsim (l l' : lex) : Prop :=
  l_src l = pre ++ R /\ l_src l' = pre' ++ R /\ l_rest l' = l_rest l /\ l_pos l' = l_pos l + k /\ blen pre <= l_pos l.
Definition rsim {A} (f : A -> A) (r r' : lres A) : Prop :=
  match r, r' with
  | LOk a l, LOk a' l' => a' = f a /\ lsim l l'
  | LPanic w, LPanic w' => w' = w
  | _, _ => False
  end.
Notation rs := (rsim (fun x => x)).

Lemma slice_sim a b : blen pre <= a -> slice (pre' ++ R) (a + k) (b + k) = slice (pre ++ R) a b.
Proof.
  intros H. unfold slice.
  destruct (Nat.leb_spec a b), (Nat.leb_spec (a + k) (b + k)); try lia; [|easy].
  replace (a + k) with (blen pre' + (a - blen pre)) by lia.
  replace (drop_bytes a (pre ++ R)) with (drop_bytes (blen pre + (a - blen pre)) (pre ++ R)) by (f_equal; lia).
  rewrite !drop_bytes_pre. now replace (b + k - (blen pre' + (a - blen pre))) with (b - a) by lia.
Qed.
Lemma with_s_sim l l' a b f : lsim l l' -> blen pre <= a ->
  rs (with_s l a b f) (with_s l' (a + k) (b + k) f).
Proof.
  intros H A. unfold with_s, lex_s. pose proof H as (-> & -> & _). rewrite slice_sim by exact A.
  destruct (slice _ a b); cbn; auto.
Qed.
Lemma lsim_pos l l' : lsim l l' -> l_pos l' = l_pos l + k.
Proof. now intros (_ & _ & _ & ? & _). Qed.
Lemma peek_pos_sim l l' : lsim l l' -> peek_pos l' = peek_pos l + k.
Proof.
  intros (S & S' & Rr & P & _). unfold peek_pos. rewrite Rr. destruct (l_rest l); [|exact P].
  rewrite S, S', !blen_app. lia.
Qed.
Lemma bump_sim l l' : lsim l l' -> lsim (bump l) (bump l').
Proof.
  intros (S & S' & Rr & P & G). unfold bump. rewrite Rr. destruct (l_rest l) eqn:E.
  - repeat split; congruence || lia.
  - repeat split; cbn; auto; lia.
Qed.
Lemma peekc_sim l l' : lsim l l' -> peekc l' = peekc l.
Proof. intros (_ & _ & Rr & _). unfold peekc. now rewrite Rr. Qed.
Lemma peek_is_sim l l' c : lsim l l' -> peek_is l' c = peek_is l c.
Proof. intros H. unfold peek_is. now rewrite (peekc_sim _ _ H). Qed.
Lemma mk_sim l l' r p p' : lsim l l' -> p' = p + k -> l_pos l <= p -> lsim (mkLex (l_src l) r p) (mkLex (l_src l') r p').
Proof. intros (S & S' & Rr & P & G) -> L. repeat split; cbn; auto. lia. Qed.
Lemma bump_while_sim f l l' : lsim l l' -> lsim (bump_while f l) (bump_while f l').
Proof.
  intros H. pose proof H as (S & S' & Rr & P & G). unfold bump_while. rewrite Rr, P, take_while_shift.
  pose proof (take_while_ge f (l_rest l) (l_pos l)). destruct (take_while f (l_rest l) (l_pos l)); cbn in *.
  now apply mk_sim.
Qed.
Lemma match_letters_sim w : forall l l', lsim l l' ->
  fst (match_letters w l') = fst (match_letters w l) /\ lsim (snd (match_letters w l)) (snd (match_letters w l')).
Proof.
  induction w as [|x w IH]; intros l l' H; cbn [match_letters]; [easy|].
  rewrite (peekc_sim _ _ H). destruct (peekc l) as [c|]; [|easy].
  destruct (to_upper c =? x)%N; [|easy]. apply IH. now apply bump_sim.
Qed.
Lemma simple_literal_sim a l l' : lsim l l' -> blen pre <= a ->
  rs (simple_literal a l) (simple_literal (a + k) l').
Proof.
  intros H A. unfold simple_literal. pose proof (bump_while_sim is_word _ _ H) as B.
  rewrite (peek_pos_sim _ _ B). now apply with_s_sim.
Qed.
Lemma lex_number_sim a l l' : lsim l l' -> blen pre <= a ->
  rs (lex_number a l) (lex_number (a + k) l').
Proof.
  intros H A. unfold lex_number. pose proof (bump_while_sim is_digit _ _ H) as B.
  rewrite (peek_is_sim _ _ _ B). destruct (peek_is _ _).
  - pose proof (bump_while_sim is_digit _ _ (bump_sim _ _ B)) as B2.
    rewrite (peek_pos_sim _ _ B2). now apply with_s_sim.
  - rewrite (peek_pos_sim _ _ B). now apply with_s_sim.
Qed.
Lemma lex_string_sim q f a l l' : lsim l l' -> blen pre <= a ->
  rs (lex_string q f a l) (lex_string q f (a + k) l').
Proof.
  intros H A. pose proof H as (S & S' & Rr & P & G). unfold lex_string.
  rewrite Rr, P, (scan_string_shift q k (length (l_rest l)) (l_rest l) (l_pos l) (Nat.le_refl _)).
  pose proof (scan_string_ge q (length (l_rest l)) (l_rest l) (l_pos l) (Nat.le_refl _)) as Ge.
  destruct (scan_string q (l_rest l) (l_pos l)) as [[i|] [r p]]; cbn in *.
  - replace (a + k + 1) with (a + 1 + k) by lia. apply with_s_sim; [|lia]. now apply mk_sim.
  - split; [easy|]. now apply mk_sim.
Qed.

Lemma some_sim (r r' : lres tok) : rs r r' ->
  rsim (fun x : option tok => x) (match r with LOk t l => LOk (Some t) l | LPanic w => LPanic w end)
     (match r' with LOk t l => LOk (Some t) l | LPanic w => LPanic w end).
Proof. destruct r, r'; cbn; try easy. now intros [-> ?]. Qed.

Lemma lex_char_sim a c l l' : lsim l l' -> blen pre <= a ->
  rs (lex_char a c l) (lex_char (a + k) c l').
Proof.
  intros H A. pose proof (bump_sim _ _ H) as Hb.
  assert (P1 : forall t, rs (tok1 t l) (tok1 t l')) by (intros; cbn; auto).
  assert (P2 : forall c t1 t2, rs (tok2 c t1 t2 l) (tok2 c t1 t2 l')).
  { intros. unfold tok2. rewrite (peek_is_sim _ _ _ H). destruct (peek_is l c0); cbn; auto. }
  unfold lex_char. 
  let rec go := lazymatch goal with
  | |- rs (if ?b then LOk None ?l else _) _ => destruct b; [cbn; now auto|go]
  | |- rs (if ?b then match tok1 ?t ?l with LOk _ _ => _ | LPanic _ => _ end else _) _ =>
      destruct b; [apply some_sim; apply P1|go]
  | |- rs (if ?b then match tok2 _ _ _ _ with LOk _ _ => _ | LPanic _ => _ end else _) _ =>
      destruct b; [apply some_sim; apply P2|go]
  | |- rs (if ?b then _ else _) _ => destruct b; [try apply some_sim|go]
  | _ => idtac end in go.
  - (* @ *) rewrite (peek_is_sim _ _ _ H). destruct (peek_is l 64); [|cbn; auto].
    cbv zeta. rewrite (peekc_sim _ _ Hb). destruct (peekc (bump l)) as [d|]; [|cbn; auto].
    destruct (to_upper d =? 83)%N; [|destruct (to_upper d =? 71)%N; [|cbn; auto]].
    + destruct (match_letters_sim (txt "SESSION") _ _ Hb) as [E1 E2].
      destruct (match_letters _ (bump l)), (match_letters _ (bump l')). cbn in E1, E2. subst. cbn. auto.
    + destruct (match_letters_sim (txt "GLOBAL") _ _ Hb) as [E1 E2].
      destruct (match_letters _ (bump l)), (match_letters _ (bump l')). cbn in E1, E2. subst. cbn. auto.
  - (* $ *) rewrite (peekc_sim _ _ H). destruct (peekc l) as [d|]; [|cbn; auto].
    destruct (d =? 36)%N; [cbn; auto|]. destruct (Lexer.between 49 57 d); [|cbn; auto].
    pose proof Hb as (_ & _ & Rr & P & G). rewrite Rr, P, dollar_digits_shift.
    destruct (dollar_digits (d - 48) (l_rest (bump l)) (l_pos (bump l))) as [[v [r p]]|] eqn:E; cbn; [|easy].
    apply dollar_digits_ge in E. cbn in E. split; [easy|].
    assert (Sb : forall l, l_src (bump l) = l_src l) by (intros x; unfold bump; destruct (l_rest x); easy).
    rewrite <- (Sb l), <- (Sb l'). now apply mk_sim.
  - (* ! *) rewrite !(peek_is_sim _ _ _ H). destruct (peek_is l 61); [cbn; auto|]. destruct (peek_is l 33); cbn; auto.
  - (* < *) rewrite !(peek_is_sim _ _ _ H). destruct (peek_is l 61).
    + unfold tok2. rewrite (peek_is_sim _ _ _ Hb). destruct (peek_is (bump l) 62); cbn; auto using bump_sim.
    + destruct (peek_is l 62); [cbn; auto|]. destruct (peek_is l 60); cbn; auto.
  - (* > *) rewrite !(peek_is_sim _ _ _ H). destruct (peek_is l 61); [cbn; auto|]. destruct (peek_is l 62); cbn; auto.
  - (* - *) rewrite !(peek_is_sim _ _ _ H). destruct (peek_is l 45); [|cbn; auto].
    pose proof H as (_ & _ & Rr & P & G). rewrite Rr, P, skip_line_shift.
    pose proof (skip_line_ge (l_rest l) (l_pos l)). destruct (skip_line _ _); cbn in *. split; [easy|]. now apply mk_sim.
  - (* / *) rewrite !(peek_is_sim _ _ _ H). destruct (peek_is l 42).
    + cbv zeta. pose proof Hb as (_ & _ & Rr & P & G). rewrite Rr, P, skip_block_shift.
      pose proof (skip_block_ge (l_rest (bump l)) (l_pos (bump l))).
      assert (Sb : forall l, l_src (bump l) = l_src l) by (intros x; unfold bump; destruct (l_rest x); easy).
      rewrite <- (Sb l), <- (Sb l').
      destruct (skip_block _ _) as [[] [r p]]; cbn in *; (split; [easy|]); now apply mk_sim.
    + destruct (peek_is l 47); [|cbn; auto].
      pose proof H as (_ & _ & Rr & P & G). rewrite Rr, P, skip_line_shift.
      pose proof (skip_line_ge (l_rest l) (l_pos l)). destruct (skip_line _ _); cbn in *. split; [easy|]. now apply mk_sim.
  - (* x *) rewrite !(peek_is_sim _ _ _ H). destruct (peek_is l 39); [cbn; auto|]. apply some_sim. now apply simple_literal_sim.
  - now apply simple_literal_sim.
  - (* backtick *) cbv zeta. pose proof (bump_while_sim is_quoted_word _ _ H) as B.
    rewrite (peek_is_sim _ _ _ B). destruct (peek_is _ 96); [|cbn; auto].
    rewrite (lsim_pos _ _ B). replace (a + k + 1) with (a + 1 + k) by lia.
    apply with_s_sim; [now apply bump_sim|lia].
  - now apply lex_string_sim.
  - now apply lex_string_sim.
  - now apply lex_number_sim.
  - (* . *) rewrite (peekc_sim _ _ H). destruct (peekc l) as [d|]; [|cbn; auto]. destruct (is_digit d); [|cbn; auto].
    pose proof (bump_while_sim is_digit _ _ H) as B. cbv zeta. rewrite (peek_pos_sim _ _ B). now apply with_s_sim.
  - cbn; auto.
Qed.

Lemma next_token_f_sim n : forall l l', lsim l l' ->
  match next_token_f n l, next_token_f n l' with
  | Some r, Some r' => rsim (fun x => (fst x, shift k (snd x))) r r'
  | None, None => True
  | _, _ => False
  end.
Proof.
  induction n as [|n IH]; intros l l' H; cbn [next_token_f]; [easy|].
  pose proof H as (S & S' & Rr & P & G). rewrite Rr. destruct (l_rest l) as [|c r] eqn:E.
  - cbn. split; [|easy]. unfold shift. cbn. rewrite S, S', !blen_app. pairs.
  - cbv zeta. rewrite P. pose proof (lex_char_sim (l_pos l) c _ _ (bump_sim _ _ H) G) as C.
    destruct (lex_char (l_pos l) c (bump l)) as [[t|] l1|w], (lex_char (l_pos l + k) c (bump l')) as [t' l1'|w'];
      try (now destruct C); destruct C as [-> C].
    + cbn. split; [|easy]. unfold shift. cbn. now rewrite (peek_pos_sim _ _ C).
    + now apply IH.
Qed.
Lemma next_token_sim l l' : lsim l l' -> rsim (fun x => (fst x, shift k (snd x))) (next_token l) (next_token l').
Proof.
  intros H. unfold next_token. pose proof H as (_ & _ & -> & _).
  pose proof (next_token_f_sim (S (length (l_rest l))) l l' H) as N.
  destruct (next_token_f _ l), (next_token_f _ l'); easy.
Qed.
Lemma lex_all_sim n : forall l l', lsim l l' ->
  lex_all n l' = match lex_all n l with
                 | Some (inl ts) => Some (inl (map (fun x => (fst x, shift k (snd x))) ts))
                 | o => o
                 end.
Proof.
  induction n as [|n IH]; intros l l' H; cbn [lex_all]; [easy|].
  pose proof (next_token_sim l l' H) as N.
  destruct (next_token l) as [[t s] l1|w], (next_token l') as [[t' s'] l1'|w']; try (now destruct N).
  destruct N as [N N']. cbn in N. injection N as -> ->. specialize (IH _ _ N').
  rewrite IH. destruct t; try reflexivity; (destruct (lex_all n l1) as [[ts|w]|]; reflexivity).
Qed.
End Shift.

(** ** Inserting white space and comments *)
Lemma lex_all_mono n : forall l o, lex_all n l = Some o -> forall m, n <= m -> lex_all m l = Some o.
Proof.
  induction n as [|n IH]; intros l o H m L; [discriminate|]. destruct m as [|m]; [lia|].
  cbn [lex_all] in *. destruct (next_token l) as [[t s] l'|w]; [|easy].
  destruct t; try exact H;
  (destruct (lex_all n l') as [r|] eqn:E; [|discriminate]; now rewrite (IH _ _ E m) by lia).
Qed.
Lemma lex_all_next n l l1 : next_token l = next_token l1 -> lex_all n l = lex_all n l1.
Proof. intros E. destruct n; cbn [lex_all]; [easy|]. now rewrite E. Qed.

(** The end of the last token of [ts], which begin at [p]. *)
Definition end_of (p : nat) (ts : list (tok * span)) : nat := fold_left (fun _ x => snd (snd x)) ts p.

Lemma layout_end p src ts : layout p src ts -> forall ts1 ts2, ts = ts1 ++ ts2 -> p <= end_of p ts1.
Proof.
  induction 1 as [p g T|p g w r t ts T Nw Ht Ne En Ly IH]; intros ts1 ts2 E.
  - destruct ts1 as [|x ts1]; [easy|]. injection E as <- E. symmetry in E. apply app_eq_nil in E as [-> ->].
    cbn. lia.
  - destruct ts1 as [|x ts1]; [easy|]. injection E as <- E. specialize (IH ts1 ts2 E).
    cbn [end_of fold_left snd]. unfold end_of in IH. cbn [fst snd]. lia.
Qed.
Lemma ends_hd t c r r' : ends t (c :: r) -> ends t (c :: r').
Proof. destruct t; cbn; auto. Qed.
Lemma trivia_hd x : trivia x -> x = [] \/ starts (fun c => white c \/ c = 45%N \/ c = 47%N) x.
Proof.
  destruct 1 as [|c t Hc T|o body nl t Ho Hb Hn T|body t Hb T]; [now left| | |]; right; cbn; auto.
  destruct Ho as [-> | ->]; cbn; auto.
Qed.
Lemma trivia_ends t x v : trivia x -> ends t v ->
  ~ (t = TMinus /\ starts (chars "-") x) -> ~ (t = TDiv /\ starts (chars "/") x) -> ends t (x ++ v).
Proof.
  intros T En Nm Nd. destruct (trivia_hd x T) as [->|H]; [exact En|].
  destruct x as [|c x]; [easy|]. cbn in H. cbn [app].
  assert (C : c = 32%N \/ c = 9%N \/ c = 10%N \/ c = 13%N \/ c = 45%N \/ c = 47%N) by (unfold white in H; tauto).
  clear H En T. destruct t; cbn [ends starts]; unfold chars, letter, digit; cbn [txt In]; auto;
    try (unfold chars in Nm, Nd; cbn in Nm, Nd; cbn;
         repeat (destruct C as [C|C]; [subst c; cbn; intuition (try lia; try discriminate)|]);
         subst c; cbn; intuition (try lia; try discriminate)).
  all: destruct k; auto; (split; [|cbn]); 
         repeat (destruct C as [C|C]; [subst c; intuition (try lia; try discriminate)|]);
         subst c; intuition (try lia; try discriminate).
Qed.

Lemma insert_ind x v ts2 : trivia x -> ts2 <> [] ->
  forall ts1 P u0 a n n',
  trivia a ->
  lex_all n (mkLex (P ++ u0 ++ a ++ v) (u0 ++ a ++ v) (blen P)) = Some (inl (ts1 ++ ts2)) ->
  length (u0 ++ a ++ v) < n ->
  end_of (blen P) ts1 = blen P + blen u0 ->
  (forall t s, In (t, s) ts1 -> t <> TInvalid) ->
  (forall t s, In (t, s) ts1 -> snd s = blen P + blen u0 + blen a ->
     ~ (t = TMinus /\ starts (chars "-") x) /\ ~ (t = TDiv /\ starts (chars "/") x)) ->
  length (u0 ++ a ++ x ++ v) < n' ->
  lex_all n' (mkLex (P ++ u0 ++ a ++ x ++ v) (u0 ++ a ++ x ++ v) (blen P)) =
    Some (inl (ts1 ++ map (fun y => (fst y, shift (blen x) (snd y))) ts2)).
Proof.
  intros Tx N2. induction ts1 as [|[t s] ts1 IH]; intros P u0 a n n' Ta L Ln He Ni Gl Ln'.
  - cbn in He. assert (u0 = []) by (apply blen_nil_inv; lia). subst u0. cbn [app] in *.
    set (l := mkLex (P ++ a ++ v) (a ++ v) (blen P)) in *. set (l' := mkLex (P ++ a ++ x ++ v) (a ++ x ++ v) (blen P)) in *.
    assert (W : lwf l) by (exists P; easy). assert (W' : lwf l') by (exists P; easy).
    pose proof (next_token_trivia a Ta l v W eq_refl) as E.
    assert (Er : l_rest l' = (a ++ x) ++ v) by (cbn; now rewrite <- app_assoc).
    pose proof (next_token_trivia (a ++ x) (trivia_app _ _ Ta Tx) l' v W' Er) as E'.
    rewrite (lex_all_next _ _ _ E) in L. rewrite (lex_all_next _ _ _ E').
    pose proof (after_lwf _ _ _ W' Er) as W2.
    destruct (lex_all_layout n' _ W2) as (o & Eo & _). { cbn in Ln' |- *. rewrite !app_length in Ln'. lia. }
    rewrite Eo. f_equal.
    assert (LM := lex_all_mono _ _ _ L (n + n') ltac:(lia)).
    assert (EM := lex_all_mono _ _ _ Eo (n + n') ltac:(lia)).
    assert (Hs : lsim (P ++ a) (P ++ a ++ x) v (blen x) (after l a v) (after l' (a ++ x) v)).
    { unfold lsim, l, l', after. cbn. rewrite !blen_app, <- !app_assoc. repeat split; lia. }
    assert (Hk : blen (P ++ a ++ x) = blen (P ++ a) + blen x) by (rewrite !blen_app; lia).
    rewrite (lex_all_sim (P ++ a) (P ++ a ++ x) v (blen x) Hk (n + n') _ _ Hs), LM in EM. congruence.
  - destruct n as [|n]; [lia|]. destruct n' as [|n']; [lia|]. cbn [lex_all] in L |- *.
    set (l := mkLex (P ++ u0 ++ a ++ v) (u0 ++ a ++ v) (blen P)) in *.
    set (l' := mkLex (P ++ u0 ++ a ++ x ++ v) (u0 ++ a ++ x ++ v) (blen P)) in *.
    assert (W : lwf l) by (exists P; easy). assert (W' : lwf l') by (exists P; easy).
    pose proof (next_token_spec l W) as S. destruct (next_token l) as [[t0 s0] l1|w] eqn:E; [|discriminate].
    assert (Ht : t0 = t /\ s0 = s /\ t <> TEof /\ lex_all n l1 = Some (inl (ts1 ++ ts2))).
    { assert (D : t0 = TEof \/ t0 <> TEof) by (destruct t0; (now left) || (right; discriminate)).
      destruct D as [->|D].
      - injection L as _ _ L. symmetry in L. apply app_eq_nil in L as [_ L]. congruence.
      - destruct (lex_all n l1) as [[r|]|]; [|destruct t0; congruence|destruct t0; congruence].
        assert (L' : Some (inl ((t0, s0) :: r)) = Some (@inl _ panic (((t, s) :: ts1) ++ ts2)))
          by (rewrite <- L; destruct t0; congruence).
        injection L' as -> -> ->. auto. }
    destruct Ht as (-> & -> & Nt & L1).
    inversion S as [g w l2 t1 l3 A1 T1 A2 Nw Tt Ne En|]; subst; [|congruence].
    assert (Er : l_rest l = g ++ w ++ l_rest l1).
    { destruct A1 as (_ & -> & _), A2 as (_ & -> & _). easy. }
    assert (P2 : l_pos l2 = blen P + blen g) by (destruct A1 as (_ & _ & ->); easy).
    assert (P3 : l_pos l1 = blen P + blen g + blen w) by (destruct A2 as (_ & _ & ->); rewrite P2; easy).
    pose proof (adv_lwf _ _ _ W A1) as W1. pose proof (adv_lwf _ _ _ W1 A2) as W2.
    cbn [l l_rest] in Er.
    assert (Le : blen (g ++ w) <= blen u0).
    { destruct (lex_all_layout n l1 W2) as (o & Eo & Ho).
      - rewrite Er, !app_length in Ln. destruct w; [easy|]. cbn in Ln. lia.
      - rewrite L1 in Eo. injection Eo as <-. pose proof (layout_end _ _ _ Ho ts1 ts2 eq_refl) as Q.
        cbn [end_of fold_left snd] in He. unfold end_of in Q. rewrite P3 in Q, He. rewrite blen_app.
        rewrite He in Q. lia. }
    symmetry in Er. rewrite (app_assoc g) in Er. destruct (blen_app_inv _ _ _ _ Er Le) as (u1 & -> & Er1).
    assert (En' : ends t (u1 ++ a ++ x ++ v)).
    { destruct (u1 ++ a) as [|c q] eqn:Eq.
      - apply app_eq_nil in Eq as [-> ->]. cbn [app] in *. rewrite Er1 in En.
        assert (G : snd (l_pos l2, l_pos l1) = blen P + blen ((g ++ w) ++ []) + blen (@nil N)).
        { cbn. rewrite app_nil_r, P3, blen_app. lia. }
        destruct (Gl t _ (or_introl eq_refl) G). now apply trivia_ends.
      - rewrite app_assoc, Eq. rewrite Er1, app_assoc, Eq in En. cbn [app] in *. eapply ends_hd; eauto. }
    assert (Er' : l_rest l' = g ++ w ++ u1 ++ a ++ x ++ v) by (cbn; now rewrite <- !app_assoc).
    assert (Nv : t <> TInvalid) by (eapply Ni; now left).
    rewrite (next_token_complete l' g w _ t W' Er' T1 Nw Tt Ne Nv En').
    assert (Q : lex_all n' (after l' (g ++ w) (u1 ++ a ++ x ++ v)) =
      Some (inl (ts1 ++ map (fun y => (fst y, shift (blen x) (snd y))) ts2))).
    { specialize (IH (P ++ g ++ w) u1 a n n' Ta).
      replace (after l' (g ++ w) (u1 ++ a ++ x ++ v)) with
        (mkLex ((P ++ g ++ w) ++ u1 ++ a ++ x ++ v) (u1 ++ a ++ x ++ v) (blen (P ++ g ++ w))).
      2: { unfold after, l'. cbn. rewrite <- !app_assoc. f_equal. rewrite !blen_app. lia. }
      apply IH.
      - rewrite <- L1. f_equal. destruct l1 as [s1 r1 p1]. cbn in *. subst r1.
        f_equal; [|rewrite !blen_app; lia].
        destruct A1 as (S1 & _), A2 as (S2 & _). cbn in S1, S2. rewrite S2, S1, <- !app_assoc. easy.
      - rewrite !app_length in Ln. rewrite !app_length. destruct w; [easy|]. cbn [length] in Ln. lia.
      - cbn [end_of fold_left snd] in He. unfold end_of. rewrite P3 in He.
        replace (blen (P ++ g ++ w)) with (blen P + blen g + blen w) by (rewrite !blen_app; lia).
        cbn [fst snd] in He. rewrite He, !blen_app. lia.
      - intros; eapply Ni; right; eauto.
      - intros t' s' Hin Hs. apply (Gl t' s'); [now right|]. rewrite !blen_app in *. lia.
      - rewrite !app_length in Ln'. rewrite !app_length. destruct w; [easy|]. cbn [length] in Ln'. lia. }
    rewrite Q. cbn [l' l_pos]. rewrite P2, P3. destruct t; try reflexivity; congruence.
Qed.

(** White space and complete comments may be inserted between tokens: the tokens before
    the insertion stay where they are, the others move by its length.  The only exception
    is text that would form a new comment opener with a preceding minus or slash. *)
Theorem tokens_insert u0 a x v ts1 ts2 :
  tokens (u0 ++ a ++ v) = Some (inl (ts1 ++ ts2)) -> ts2 <> [] ->
  end_of 0 ts1 = blen u0 -> trivia a -> trivia x ->
  (forall t s, In (t, s) ts1 -> t <> TInvalid) ->
  (forall t s, In (t, s) ts1 -> snd s = blen u0 + blen a ->
     ~ (t = TMinus /\ starts (chars "-") x) /\ ~ (t = TDiv /\ starts (chars "/") x)) ->
  tokens (u0 ++ a ++ x ++ v) =
    Some (inl (ts1 ++ map (fun y => (fst y, shift (blen x) (snd y))) ts2)).
Proof.
  intros T N2 He Ta Tx Ni Gl. unfold tokens in *. unfold lex_new in *.
  eapply (insert_ind x v ts2 Tx N2 ts1 [] u0 a); eauto.
Qed.
