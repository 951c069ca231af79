(** Properties of the lexer: C14 (lexing), C16, C17, C18, C35, C40. *)
From Verif Require Export LexStream.
Local Open Scope string_scope.
Local Open Scope list_scope.

(** ** C35: every character is accounted for exactly once *)

(** For every source the lexer either produces a token sequence that splits the source
    into alternating gaps (white space and comments) and non-empty token texts, or it
    panics, and then the source contains one of the two texts that make it panic. *)
Theorem C35_tokens_partition_source : forall src,
  (exists ts, tokens src = Some (inl ts) /\ layout 0 src ts) \/
  (exists w, tokens src = Some (inr w) /\
     ((w = PHexLiteral /\ has_hex src) \/ (w = PDollarOverflow /\ has_big_dollar src))).
Proof.
  intros src. destruct (tokens_layout src) as ([ts|w] & E & H); [left|right]; eauto.
Qed.

(** Token ranges increase and do not overlap; each but the last is non-empty; the last is
    the end of file, at the end of the source. *)
Theorem C35_ranges_increase : forall src ts, tokens src = Some (inl ts) ->
  (forall ts1 t s t' s' ts2, ts = ts1 ++ (t, s) :: (t', s') :: ts2 ->
     t <> TEof /\ fst s < snd s /\ snd s <= fst s') /\
  exists ts1, ts = ts1 ++ [(TEof, (blen src, blen src))].
Proof.
  intros src ts E. destruct (tokens_layout src) as (o & E' & L).
  rewrite E in E'. injection E' as <-.
  assert (G : forall p r ts, layout p r ts ->
    (forall ts1 t s t' s' ts2, ts = ts1 ++ (t, s) :: (t', s') :: ts2 ->
       t <> TEof /\ fst s < snd s /\ snd s <= fst s') /\
    (exists ts1, ts = ts1 ++ [(TEof, (p + blen r, p + blen r))]) /\
    (forall t s ts', ts = (t, s) :: ts' -> p <= fst s)).
  { clear. induction 1 as [p g T|p g w r t ts T Nw Ht Ne En Ly (I1 & I2 & I3)].
    - split; [|split].
      + intros ts1 t s t' s' ts2 H. destruct ts1 as [|? [|? ?]]; discriminate.
      + now exists [].
      + intros t s ts' H. injection H as <- <- _. cbn. lia.
    - assert (0 < blen w) by (destruct w as [|c w]; [easy|]; cbn; pose proof (utf8_len_pos c); lia).
      split; [|split].
      + intros ts1 t0 s t' s' ts2 H0. destruct ts1 as [|x ts1].
        * injection H0 as <- <- ->. specialize (I3 _ _ _ eq_refl). cbn. repeat split; auto; lia.
        * injection H0 as <- ->. eauto.
      + destruct I2 as (ts1 & ->). eexists (_ :: ts1). cbn [app]. do 3 f_equal.
        rewrite !blen_app. f_equal. f_equal; lia.
      + intros t0 s ts' H0. injection H0 as <- <- _. cbn. lia. }
  destruct (G _ _ _ L) as (A & B & _). auto.
Qed.

(** After the end of the input the lexer keeps returning end of file. *)
Theorem C35_eof_forever : forall l s l', next_token l = LOk (TEof, s) l' -> lwf l ->
  next_token l' = LOk (TEof, s) l'.
Proof.
  intros l s l' E W. pose proof (next_token_spec l W) as S. rewrite E in S.
  pose proof (token_at_facts _ _ _ _ W S) as (W' & Es & _ & _ & _ & _ & R & _).
  inversion S as [|g l2 A T Hr]; subst; [congruence|].
  rewrite (next_token_eq l' W'), (R eq_refl), Es. reflexivity.
Qed.

(** Conversely, a source that splits into gaps and valid token texts, with no token
    continued by the text that follows it, is read as exactly those tokens. *)
Theorem C35_layout_is_read : forall src ts, layout 0 src ts ->
  (forall t s, In (t, s) ts -> t <> TInvalid) -> tokens src = Some (inl ts).
Proof. exact tokens_complete. Qed.

(** ** C18: white space and comments do not matter *)

(** [x] (white space and complete comments) inserted at a place between tokens and outside
    comments, i.e. separated by white space and complete comments [a] from the end of the
    last token before it. *)
Theorem C18_insert_trivia : forall u0 a x v ts1 ts2,
  tokens (u0 ++ a ++ v) = Some (inl (ts1 ++ ts2)) -> ts2 <> [] ->
  end_of 0 ts1 = blen u0 -> trivia a -> trivia x ->
  (forall t s, In (t, s) ts1 -> t <> TInvalid) ->
  (forall t s, In (t, s) ts1 -> snd s = blen u0 + blen a ->
     ~ (t = TMinus /\ starts (chars "-") x) /\ ~ (t = TDiv /\ starts (chars "/") x)) ->
  tokens (u0 ++ a ++ x ++ v) =
    Some (inl (ts1 ++ map (fun y => (fst y, (fst (snd y) + blen x, snd (snd y) + blen x))) ts2)).
Proof. exact tokens_insert. Qed.

(** In particular white space may be inserted anywhere between tokens. *)
Corollary C18_insert_white : forall u0 a c x v ts1 ts2,
  tokens (u0 ++ a ++ v) = Some (inl (ts1 ++ ts2)) -> ts2 <> [] ->
  end_of 0 ts1 = blen u0 -> trivia a -> white c -> trivia x ->
  (forall t s, In (t, s) ts1 -> t <> TInvalid) ->
  tokens (u0 ++ a ++ (c :: x) ++ v) =
    Some (inl (ts1 ++ map (fun y => (fst y, (fst (snd y) + blen (c :: x), snd (snd y) + blen (c :: x)))) ts2)).
Proof.
  intros. apply C18_insert_trivia; auto; [now constructor|].
  intros t s _ _. unfold chars; cbn. split; intros [_ [H6|[]]]; subst c; unfold white in *; lia.
Qed.

(** The exception is real: a comment glued to a minus swallows it. *)
Example C18_exception :
  tokens (txt "1-" ++ [] ++ txt "2") = Some (inl [(TInteger (txt "1"), (0, 1)); (TMinus, (1, 2)); (TInteger (txt "2"), (2, 3)); (TEof, (3, 3))]) /\
  trivia (txt "--c" ++ [10%N]) /\
  tokens (txt "1-" ++ [] ++ (txt "--c" ++ [10%N]) ++ txt "2") =
    Some (inl [(TInteger (txt "1"), (0, 1)); (TInteger (txt "2"), (6, 7)); (TEof, (7, 7))]).
Proof.
  split; [vm_compute; reflexivity|]. split; [|vm_compute; reflexivity].
  apply (tr_line (txt "--") (txt "c") 10%N []); [now left| |now left|constructor].
  repeat constructor; intros [H|H]; discriminate.
Qed.

(** Non-vacuity: a block comment inserted after the first token of [a c]. *)
Example C18_applies :
  tokens (txt "a" ++ [] ++ txt "/*b*/" ++ txt " c") =
    Some (inl [(TIdent (txt "a") NOT_A_KEYWORD, (0, 1)); (TIdent (txt "c") NOT_A_KEYWORD, (7, 8)); (TEof, (8, 8))]).
Proof.
  apply (C18_insert_trivia (txt "a") [] (txt "/*b*/") (txt " c") [(TIdent (txt "a") NOT_A_KEYWORD, (0, 1))]
           [(TIdent (txt "c") NOT_A_KEYWORD, (2, 3)); (TEof, (3, 3))]); [vm_compute; reflexivity|discriminate|reflexivity|constructor| | |].
  - apply (tr_block (txt "b") []); [|constructor]. intros (p & q & H).
    destruct p as [|? [|? [|? ?]]]; discriminate.
  - intros t s [H|[]]. injection H as <- _. discriminate.
  - intros t s [H|[]]. injection H as <- _. split; intros [? _]; discriminate.
Qed.

(** ** C14, lexing part: a single-quoted literal is one token *)



Lemma double_body q t : ~ In 92%N t -> q <> 92%N -> string_body q (double q t).
Proof.
  intros N Q. induction t as [|c t IH]; cbn; [constructor|]. cbn in N.
  destruct (N.eqb_spec c q) as [->|D]; [apply sb_double|apply sb_char]; auto.
Qed.

(** Wherever such a literal stands (after any [pre], separated by white space or comments
    [g] from the current position), the lexer returns one token covering exactly it. *)
Theorem C14_lexed_as_one_token : forall l g t r,
  lwf l -> l_rest l = g ++ (txt "'" ++ double 39 t ++ txt "'") ++ r -> trivia g ->
  ~ In 92%N t -> ~ starts (fun c => c = 39%N) r ->
  next_token l = LOk (TSingleQuotedString (double 39 t),
      (l_pos l + blen g, l_pos l + blen g + blen (txt "'" ++ double 39 t ++ txt "'")))
    (after l (g ++ txt "'" ++ double 39 t ++ txt "'") r).
Proof.
  intros l g t r W E T N St. apply next_token_complete; auto; try easy.
  cbn. split; [easy|]. now apply double_body.
Qed.

(** ** C40: keyword names *)
Fixpoint nodupb (l : list string) : bool :=
  match l with [] => true | s :: r => negb (existsb (String.eqb s) r) && nodupb r end.
Lemma nodupb_NoDup l : nodupb l = true -> NoDup l.
Proof.
  induction l as [|s l IH]; cbn; [constructor|]. rewrite andb_true_iff, negb_true_iff.
  intros [H1 H2]. constructor; [|auto]. intros I.
  assert (existsb (String.eqb s) l = true) by (apply existsb_exists; exists s; split; [easy|apply String.eqb_refl]).
  congruence.
Qed.
Lemma txt_inj a b : txt a = txt b -> a = b.
Proof.
  revert b. induction a as [|c a IH]; destruct b as [|d b]; cbn; try discriminate; [easy|].
  intros H. injection H as H1 H2. f_equal; [|auto].
  rewrite <- (ascii_N_embedding c), <- (ascii_N_embedding d). now rewrite H1.
Qed.

(** The keywords of the enum. *)
Definition keyword (k : kw) : Prop := exists s, k = KW s /\ In s keywords_table.

Theorem C40_lookup_of_name : forall k, keyword k -> kw_of_text (txt (kw_name k)) = k.
Proof.
  intros k (s & -> & H). cbn. unfold kw_of_text.
  destruct (find _ keywords_table) as [s'|] eqn:E.
  - apply find_some in E as [_ E]. apply text_eqb_eq in E. now rewrite (txt_inj _ _ E).
  - exfalso. apply (find_none _ _ E) in H. rewrite text_eqb_refl in H. discriminate.
Qed.
Theorem C40_names_distinct : forall k k', keyword k -> keyword k' -> kw_name k = kw_name k' -> k = k'.
Proof. intros k k' (s & -> & _) (s' & -> & _) H. cbn in H. now subst. Qed.
Theorem C40_table_has_no_duplicates : NoDup keywords_table.
Proof. apply nodupb_NoDup. vm_compute. reflexivity. Qed.
Theorem C40_unknown_word : forall t, (forall k, keyword k -> txt (kw_name k) <> t) -> kw_of_text t = NOT_A_KEYWORD.
Proof.
  intros t H. destruct (kw_of_text_cases t) as [E|(s & E & I & T)]; [exact E|].
  exfalso. apply (H (KW s)); [now exists s|exact T].
Qed.
Lemma in_table s : existsb (String.eqb s) keywords_table = true -> keyword (KW s).
Proof. intros H. apply existsb_exists in H as (s' & I & E). apply String.eqb_eq in E. subst. now exists s'. Qed.
Example C40_applies : keyword (KW "SELECT") /\ kw_of_text (txt "SELECT") = KW "SELECT".
Proof. split; [apply in_table|]; vm_compute; reflexivity. Qed.

(** ** C16: keywords are case-insensitive *)

(** [w'] is [w] with the case of some letters changed. *)
Definition recased (w w' : text) : Prop := upper w = upper w'.

Lemma recased_letter c c' : to_upper c = to_upper c' -> letter c -> letter c'.
Proof.
  unfold to_upper, letter. destruct ((97 <=? c) && (c <=? 122))%N eqn:B, ((97 <=? c') && (c' <=? 122))%N eqn:B';
    rewrite ?andb_true_iff, ?andb_false_iff, ?N.leb_le, ?N.leb_gt in *; lia.
Qed.
Lemma recased_wchar c c' : to_upper c = to_upper c' -> letter c \/ digit c -> letter c' \/ digit c'.
Proof.
  unfold to_upper, letter, digit. destruct ((97 <=? c) && (c <=? 122))%N eqn:B, ((97 <=? c') && (c' <=? 122))%N eqn:B';
    rewrite ?andb_true_iff, ?andb_false_iff, ?N.leb_le, ?N.leb_gt in *; lia.
Qed.
Lemma recased_word w w' : recased w w' -> word w -> word w'.
Proof.
  intros E (c & r & -> & Hc & Hr). destruct w' as [|c' r']; [discriminate|]. injection E as E1 E2.
  exists c', r'. split; [easy|]. split; [eapply recased_letter; eauto|].
  revert r' E2. induction Hr as [|d r Hd Hr IH]; intros [|d' r'] E2; try discriminate; constructor;
    injection E2 as E2 E3; [eapply recased_wchar; eauto|auto].
Qed.
Lemma wchar_utf8 c : letter c \/ digit c -> utf8_len c = 1.
Proof.
  unfold letter, digit, utf8_len. intros H. destruct (N.ltb_spec c 128); [easy|]. lia.
Qed.
Lemma word_blen w : word w -> blen w = length w.
Proof.
  intros (c & r & -> & Hc & Hr). cbn. rewrite wchar_utf8 by auto. f_equal.
  induction Hr as [|d r Hd Hr IH]; cbn; [easy|]. rewrite wchar_utf8 by auto. now rewrite IH.
Qed.
Lemma recased_blen w w' : recased w w' -> word w -> blen w' = blen w.
Proof.
  intros E W. rewrite !word_blen; eauto using recased_word. symmetry.
  rewrite <- (map_length to_upper w), <- (map_length to_upper w'). exact (f_equal _ E).
Qed.
Lemma layout_first p r ts : layout p r ts -> Forall (fun x => p <= fst (snd x)) ts.
Proof.
  induction 1 as [p g T|p g w r t ts T Nw Ht Ne En Ly IH]; constructor; cbn; auto; try lia.
  eapply Forall_impl; [|exact IH]. cbn. intros; lia.
Qed.
Lemma ends_letter t c c' r r' : letter c -> letter c' -> t <> TMod -> ends t (c :: r) -> ends t (c' :: r').
Proof.
  intros L L' N. unfold letter in *. destruct t; try congruence; cbn; unfold chars; cbn; auto; try lia;
    try (destruct k; cbn; auto; unfold letter, digit; lia);
    unfold digit; lia.
Qed.

Lemma layout_word p src ts w k s : layout p src ts -> k <> QUOTED_IDENTIFIER -> In (TIdent w k, s) ts -> word w.
Proof.
  intros L Nk. induction L as [p g T|p g w1 r t ts T Nw Ht Ne En Ly IH]; cbn.
  - intros [H|[]]; discriminate.
  - intros [H|H]; [|auto]. injection H as -> _. cbn in Ht. destruct k; easy.
Qed.
Lemma recase_layout p src ts : layout p src ts -> forall u w w' v k ts1 ts2,
  src = u ++ w ++ v -> k <> QUOTED_IDENTIFIER -> recased w w' ->
  ts = ts1 ++ (TIdent w k, (p + blen u, p + blen u + blen w)) :: ts2 ->
  (forall s, snd s = p + blen u -> ~ In (TMod, s) ts1) ->
  layout p (u ++ w' ++ v) (ts1 ++ (TIdent w' k, (p + blen u, p + blen u + blen w)) :: ts2).
Proof.
  induction 1 as [p g T|p g w0 r t ts T Nw Ht Ne En Ly IH]; intros u w w' v k ts1 ts2 Es Nk Rc Ets Nm.
  - destruct ts1 as [|? [|? ?]]; discriminate.
  - destruct ts1 as [|x ts1].
    + injection Ets as -> Ep Ep2 ->. clear IH.
      assert (Hw : w0 = w /\ word w /\ k = kw_of_text (upper w)) by (cbn in Ht; destruct k; easy).
      destruct Hw as (-> & Wd & Hk).
      destruct (blen_app_inv u (w ++ v) g (w ++ r)) as (m & -> & E2); [now rewrite Es|lia|].
      rewrite blen_app in Ep. assert (m = []) by (apply blen_nil_inv; lia). subst m.
      rewrite app_nil_r in *. cbn in E2. apply app_inv_head in E2. subst v. cbn [app].
      rewrite <- (recased_blen w w') at 1 by auto. apply lay_tok; [exact T|..].
      * destruct w'; [destruct w; easy|easy].
      * pose proof (tok_text_word w' (recased_word _ _ Rc Wd)) as Q. now rewrite Hk, Rc.
      * discriminate.
      * clear - En Rc Nk. cbn in *. destruct k; try easy; (destruct En as [E1 E2]; split; [easy|]; now rewrite <- Rc).
      * now rewrite (recased_blen w w').
    + injection Ets as <- ->.
      pose proof (layout_first _ _ _ Ly) as F. rewrite Forall_app in F. destruct F as [_ F].
      inversion F as [|? ? Hs _]; subst. cbn in Hs.
      destruct (blen_app_inv (g ++ w0) r u (w ++ v)) as (u1 & -> & E2); [now rewrite <- app_assoc, Es|rewrite blen_app; lia|].
      assert (Q : p + blen ((g ++ w0) ++ u1) = p + blen g + blen w0 + blen u1) by (rewrite !blen_app; lia).
      rewrite Q in *. rewrite <- !app_assoc. cbn [app]. apply lay_tok; auto.
      * destruct u1 as [|c u1]; [|subst r; cbn in *; eapply ends_hd; eauto].
        cbn [app] in *. assert (Wd : word w).
        { assert (I : In (TIdent w k, (p + blen g + blen w0 + blen (@nil N), p + blen g + blen w0 + blen (@nil N) + blen w))
             (ts1 ++ (TIdent w k, (p + blen g + blen w0 + blen (@nil N), p + blen g + blen w0 + blen (@nil N) + blen w)) :: ts2))
            by (apply in_or_app; right; now left).
          eapply layout_word; eauto. }
        pose proof (recased_word _ _ Rc Wd) as Wd'.
        destruct Wd as (c & rr & -> & Hc & _), Wd' as (c' & rr' & -> & Hc' & _).
        subst r. cbn [app] in *. eapply ends_letter; [exact Hc|exact Hc'| |exact En].
        intros ->. apply (Nm (p + blen g, p + blen g + blen w0)); [cbn; lia|now left].
      * apply IH; auto. intros s Hs' I. apply (Nm s Hs'). now right.
Qed.

(** Changing the case of letters of an unquoted word changes neither which keyword it is
    (if any) nor any other token.  The word may not follow a percent sign directly, since
    [%s] is a token of its own and [%S] is not. *)
Theorem C16_case_insensitive : forall u w w' v k ts1 ts2,
  tokens (u ++ w ++ v) = Some (inl (ts1 ++ (TIdent w k, (blen u, blen u + blen w)) :: ts2)) ->
  k <> QUOTED_IDENTIFIER -> recased w w' ->
  (forall t s, In (t, s) (ts1 ++ ts2) -> t <> TInvalid) ->
  (forall s, snd s = blen u -> ~ In (TMod, s) ts1) ->
  tokens (u ++ w' ++ v) = Some (inl (ts1 ++ (TIdent w' k, (blen u, blen u + blen w)) :: ts2)).
Proof.
  intros u w w' v k ts1 ts2 E Nk Rc Ni Nm. destruct (tokens_layout (u ++ w ++ v)) as (o & E' & L).
  rewrite E in E'. injection E' as <-. apply tokens_complete.
  - apply (recase_layout 0 _ _ L u w w' v k ts1 ts2); auto.
  - intros t s I. apply in_app_or in I as [I|[I|I]].
    + apply (Ni t s). apply in_or_app; now left.
    + injection I as <- _. discriminate.
    + apply (Ni t s). apply in_or_app; now right.
Qed.
(** The keyword of a word is a function of its upper-case form, and every keyword is
    recognised in every mixture of case. *)
Theorem C16_every_case : forall k w, keyword k -> upper w = txt (kw_name k) -> kw_of_text (upper w) = k.
Proof. intros k w K E. rewrite E. now apply C40_lookup_of_name. Qed.

Example C16_applies :
  tokens (txt "1+" ++ txt "seLEct" ++ txt " x") = Some (inl
    [(TInteger (txt "1"), (0, 1)); (TPlus, (1, 2)); (TIdent (txt "seLEct") (KW "SELECT"), (2, 8));
     (TIdent (txt "x") NOT_A_KEYWORD, (9, 10)); (TEof, (10, 10))]).
Proof.
  apply (C16_case_insensitive (txt "1+") (txt "SELECT") (txt "seLEct") (txt " x") (KW "SELECT")
     [(TInteger (txt "1"), (0, 1)); (TPlus, (1, 2))] [(TIdent (txt "x") NOT_A_KEYWORD, (9, 10)); (TEof, (10, 10))]);
    try (vm_compute; easy).
  - intros t s H. cbn in H. intuition congruence.
  - intros s _ H. cbn in H. intuition congruence.
Qed.
(** The exception is real: [%S] is an operator and a name, [%s] is an argument. *)
Example C16_exception :
  tokens (txt "%S") = Some (inl [(TMod, (0, 1)); (TIdent (txt "S") NOT_A_KEYWORD, (1, 2)); (TEof, (2, 2))]) /\
  tokens (txt "%s") = Some (inl [(TPercentS, (0, 2)); (TEof, (2, 2))]).
Proof. split; vm_compute; reflexivity. Qed.

(** ** C17: backtick-quoted names are never keywords *)
Theorem C17_quoted_is_not_a_keyword : forall l g v r,
  lwf l -> l_rest l = g ++ (txt "`" ++ v ++ txt "`") ++ r -> trivia g -> quoted_word v ->
  next_token l = LOk (TIdent v QUOTED_IDENTIFIER, (l_pos l + blen g, l_pos l + blen g + (2 + blen v)))
                     (after l (g ++ txt "`" ++ v ++ txt "`") r).
Proof.
  intros l g v r W E T Q. rewrite (next_token_complete l g _ r (TIdent v QUOTED_IDENTIFIER) W E T); try easy.
  repeat f_equal. rewrite !blen_app. cbn. lia.
Qed.
(** Conversely a token with the text of a backtick-quoted name is no keyword. *)
Theorem C17_only_quoted : forall src ts t s w, tokens src = Some (inl ts) -> In (t, s) ts -> t <> TInvalid ->
  at_span src s (txt "`" ++ w) ->
  exists v, t = TIdent v QUOTED_IDENTIFIER /\ txt "`" ++ w = txt "`" ++ v ++ txt "`".
Proof.
  intros src ts t s w E I Nt A. destruct (tokens_layout src) as (o & E' & L).
  rewrite E in E'. injection E' as <-.
  assert (G : forall p r ts, layout p r ts -> forall pre, blen pre = p -> In (t, s) ts ->
     exists w, at_span (pre ++ r) s w /\ tok_text t w).
  { clear. induction 1 as [p g T|p g w r t0 ts T Nw Ht Ne En Ly IH]; intros pre Hp I.
    - destruct I as [I|[]]. injection I as <- <-. exists []. split; [|easy].
      exists (pre ++ g), []. cbn. rewrite !app_nil_r, blen_app. repeat split; lia.
    - destruct I as [I|I].
      + injection I as <- <-. exists w. split; [|easy]. exists (pre ++ g), r. cbn.
        rewrite <- app_assoc, blen_app. repeat split; lia.
      + destruct (IH (pre ++ g ++ w)) as (w' & A & B); [rewrite !blen_app; lia|exact I|].
        exists w'. split; [|easy]. now rewrite <- !app_assoc in A. }
  destruct (G _ _ _ L [] eq_refl I) as (w' & A' & B). cbn in A'.
  rewrite <- (at_span_fun _ _ _ _ A A') in B.
  destruct t; cbn in B; try discriminate; try easy; try (destruct B; discriminate).
  - destruct B as [<- B]. destruct B as (a & b & Hab & Ha & Hb & _).
    destruct a as [|c a]; [discriminate|]. injection Hab as <- _. inversion Ha as [|? ? H]. unfold digit in H. lia.
  - destruct k.
    + destruct B as (<- & (c & r & Hc & L1 & _) & _). injection Hc as <- _. unfold letter in L1. lia.
    + destruct B as [B _]. exists t. auto.
    + destruct B as (<- & (c & r & Hc & L1 & _) & _). injection Hc as <- _. unfold letter in L1. lia.
  - destruct B as (<- & _ & B). inversion B as [|? ? H]. unfold digit in H. lia.
  - destruct B as (d & ds & B & _). discriminate.
Qed.
Example C17_applies : tokens (txt "`select`") = Some (inl [(TIdent (txt "select") QUOTED_IDENTIFIER, (0, 8)); (TEof, (8, 8))]).
Proof. vm_compute. reflexivity. Qed.
