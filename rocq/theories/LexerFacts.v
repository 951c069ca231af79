(** Facts about the lexer: what [next_token] does to the remaining characters. *)
From Verif Require Export Lexer LexSpec.
Local Open Scope string_scope.
Local Open Scope list_scope.

(** ** Text and slices *)
Lemma utf8_len_pos c : 0 < utf8_len c.
Proof. unfold utf8_len. repeat (destruct (_ <? _)%N); lia. Qed.

Lemma blen_app a b : blen (a ++ b) = blen a + blen b.
Proof. induction a; simpl; lia. Qed.

Lemma length_le_blen a : length a <= blen a.
Proof. induction a as [|c a IH]; simpl; [lia|]. pose proof (utf8_len_pos c). lia. Qed.

Lemma blen_nil_inv a : blen a = 0 -> a = [].
Proof. destruct a as [|c a]; [easy|]. simpl. pose proof (utf8_len_pos c). lia. Qed.

Lemma drop_bytes_app p q : drop_bytes (blen p) (p ++ q) = Some q.
Proof.
  induction p as [|c p IH]; [now destruct q|].
  cbn [blen app]. pose proof (utf8_len_pos c).
  destruct (utf8_len c + blen p) eqn:E; [lia|].
  cbn [drop_bytes]. rewrite <- E. destruct (Nat.leb_spec (utf8_len c) (utf8_len c + blen p)); [|lia].
  now replace (utf8_len c + blen p - utf8_len c) with (blen p) by lia.
Qed.

Lemma take_bytes_app p q : take_bytes (blen p) (p ++ q) = Some p.
Proof.
  induction p as [|c p IH]; [now destruct q|].
  cbn [blen app]. pose proof (utf8_len_pos c).
  destruct (utf8_len c + blen p) eqn:E; [lia|].
  cbn [take_bytes]. rewrite <- E. destruct (Nat.leb_spec (utf8_len c) (utf8_len c + blen p)); [|lia].
  replace (utf8_len c + blen p - utf8_len c) with (blen p) by lia. now rewrite IH.
Qed.

Lemma drop_bytes_inv n t r : drop_bytes n t = Some r -> exists p, t = p ++ r /\ n = blen p.
Proof.
  revert n r. induction t as [|c t IH]; intros n r H; destruct n; cbn [drop_bytes] in H.
  - injection H as <-. now exists [].
  - discriminate.
  - injection H as <-. now exists [].
  - destruct (Nat.leb_spec (utf8_len c) (S n)); [|discriminate].
    apply IH in H as (p & -> & Hn). exists (c :: p). cbn. split; [easy|]. lia.
Qed.

Lemma take_bytes_inv n t r : take_bytes n t = Some r -> exists q, t = r ++ q /\ n = blen r.
Proof.
  revert n r. induction t as [|c t IH]; intros n r H; destruct n; cbn [take_bytes] in H.
  - injection H as <-. now exists [].
  - discriminate.
  - injection H as <-. now exists (c :: t).
  - destruct (Nat.leb_spec (utf8_len c) (S n)); [|discriminate].
    destruct (take_bytes (S n - utf8_len c) t) as [r'|] eqn:Et; [|discriminate].
    injection H as <-. apply IH in Et as (q & -> & Hn). exists q. cbn. split; [easy|]. lia.
Qed.

Lemma slice_app p q r : slice (p ++ q ++ r) (blen p) (blen p + blen q) = Some q.
Proof.
  unfold slice. destruct (Nat.leb_spec (blen p) (blen p + blen q)); [|lia].
  rewrite drop_bytes_app. replace (blen p + blen q - blen p) with (blen q) by lia.
  apply take_bytes_app.
Qed.

Lemma slice_inv src a b w : slice src a b = Some w ->
  exists p r, src = p ++ w ++ r /\ a = blen p /\ b = blen p + blen w.
Proof.
  unfold slice. destruct (Nat.leb_spec a b); [|discriminate].
  destruct (drop_bytes a src) as [t|] eqn:Ed; [|discriminate]. intros Ht.
  apply drop_bytes_inv in Ed as (p & -> & Ha). apply take_bytes_inv in Ht as (r & -> & Hb).
  exists p, r. repeat split; [easy|lia].
Qed.

Lemma slice_iff_at src s w : slice src (fst s) (snd s) = Some w <-> at_span src s w.
Proof.
  split.
  - intros H. apply slice_inv in H as (p & r & -> & Ha & Hb). exists p, r. auto.
  - intros (p & r & -> & -> & ->). apply slice_app.
Qed.

Lemma blen_app_inv p q p' q' : p ++ q = p' ++ q' -> blen p <= blen p' -> exists m, p' = p ++ m /\ q = m ++ q'.
Proof.
  revert p'. induction p as [|c p IH]; intros p' E L.
  - exists p'. now split.
  - destruct p' as [|c' p']; cbn in *.
    + pose proof (utf8_len_pos c). lia.
    + injection E as <- E. destruct (IH p' E) as (m & -> & ->); [lia|]. now exists m.
Qed.

Lemma at_vspan src s w : at_span src s w -> vspan src s.
Proof.
  intros (p & r & -> & Ha & Hb). repeat split; [lia| |].
  - now exists p, (w ++ r).
  - exists (p ++ w), r. rewrite <- app_assoc, blen_app. split; [easy|lia].
Qed.

Lemma vspan_slice src s : vspan src s <-> exists w, slice src (fst s) (snd s) = Some w.
Proof.
  split.
  - intros (L & (p & q & -> & Ha) & (p' & q' & E & Hb)).
    destruct (blen_app_inv p q p' q' E) as (m & -> & ->); [lia|].
    exists m. apply slice_iff_at. exists p, q'. rewrite blen_app in Hb. repeat split; lia.
  - intros (w & H). apply slice_iff_at in H. eauto using at_vspan.
Qed.

Lemma at_span_fun src s w w' : at_span src s w -> at_span src s w' -> w = w'.
Proof. intros H H'. apply slice_iff_at in H, H'. congruence. Qed.

Lemma boundary_le src n : boundary src n -> n <= blen src.
Proof. intros (p & q & -> & ->). rewrite blen_app. lia. Qed.
Lemma boundary_0 src : boundary src 0.
Proof. now exists [], src. Qed.
Lemma boundary_end src : boundary src (blen src).
Proof. exists src, []. now rewrite app_nil_r. Qed.

Lemma text_eqb_eq a b : text_eqb a b = true <-> a = b.
Proof.
  revert b. induction a as [|x a IH]; intros [|y b]; cbn; try (split; congruence).
  rewrite andb_true_iff, N.eqb_eq, IH. split; [intros []; congruence | intros [=]; auto].
Qed.
Lemma text_eqb_refl a : text_eqb a a = true.
Proof. now apply text_eqb_eq. Qed.
Lemma kw_eqb_eq a b : kw_eqb a b = true <-> a = b.
Proof.
  destruct a, b; cbn; try (split; congruence).
  rewrite String.eqb_eq. split; congruence.
Qed.
Lemma tok_eqb_eq a b : tok_eqb a b = true <-> a = b.
Proof.
  destruct a, b; cbn; try (split; congruence);
    rewrite ?andb_true_iff, ?text_eqb_eq, ?kw_eqb_eq, ?N.eqb_eq;
    (split; [intros; repeat match goal with H : _ /\ _ |- _ => destruct H end; congruence
            | intros [=]; auto]).
Qed.

(** ** Lexer states *)
Definition lwf (l : lex) : Prop := exists pre, l_src l = pre ++ l_rest l /\ l_pos l = blen pre.
Definition adv (l : lex) (w : text) (l' : lex) : Prop :=
  l_src l' = l_src l /\ l_rest l = w ++ l_rest l' /\ l_pos l' = l_pos l + blen w.

Lemma adv_refl l : adv l [] l.
Proof. repeat split; cbn; lia. Qed.
Lemma adv_trans l1 w1 l2 w2 l3 : adv l1 w1 l2 -> adv l2 w2 l3 -> adv l1 (w1 ++ w2) l3.
Proof.
  intros (E1 & E2 & E3) (F1 & F2 & F3). repeat split; [congruence| |].
  - rewrite E2, F2. now rewrite app_assoc.
  - rewrite blen_app. lia.
Qed.
Lemma adv_lwf l w l' : lwf l -> adv l w l' -> lwf l'.
Proof.
  intros (p & E & P) (E1 & E2 & E3). exists (p ++ w). rewrite E1, E, E2, <- app_assoc.
  split; [easy|]. rewrite blen_app. lia.
Qed.
Lemma adv_length l w l' : adv l w l' -> length (l_rest l) = length w + length (l_rest l').
Proof. intros (_ & E & _). now rewrite E, app_length. Qed.

Lemma lwf_new src : lwf (lex_new src).
Proof. exists []. easy. Qed.
Lemma peek_pos_pos l : lwf l -> peek_pos l = l_pos l.
Proof.
  intros (p & E & P). unfold peek_pos. destruct (l_rest l); [|easy].
  rewrite app_nil_r in E. congruence.
Qed.

Lemma bump_adv l c r : l_rest l = c :: r -> adv l [c] (bump l) /\ l_rest (bump l) = r.
Proof. unfold bump, adv. intros ->. cbn. repeat split; lia. Qed.

Lemma lex_s_adv l w l' : lwf l -> adv l w l' -> lex_s l' (l_pos l) (l_pos l') = Some w.
Proof.
  intros (p & E & P) (E1 & E2 & E3). unfold lex_s. rewrite E1, E, E2, E3, P.
  apply slice_app.
Qed.
Lemma lex_s_inner l a w b l' : lwf l -> adv l (a ++ w ++ b) l' ->
  lex_s l' (l_pos l + blen a) (l_pos l + blen a + blen w) = Some w.
Proof.
  intros (p & E & P) (E1 & E2 & E3). unfold lex_s. rewrite E1, E, E2, P.
  rewrite !app_assoc, <- (app_assoc _ w), <- (app_assoc _ (w ++ b)), <- (app_assoc w), <- blen_app.
  apply slice_app.
Qed.

Lemma take_while_spec p r pos : exists w, r = w ++ fst (take_while p r pos) /\
  snd (take_while p r pos) = pos + blen w /\ Forall (fun c => p c = true) w /\
  match fst (take_while p r pos) with [] => True | c :: _ => p c = false end.
Proof.
  revert pos. induction r as [|c r IH]; intros pos; cbn.
  - exists []. cbn. repeat split; [lia|constructor].
  - destruct (p c) eqn:E.
    + destruct (IH (pos + utf8_len c)) as (w & E1 & E2 & E3 & E4).
      exists (c :: w). cbn. repeat split; [congruence|lia|now constructor|easy].
    + exists []. cbn. repeat split; [lia|constructor|easy].
Qed.
Lemma bump_while_spec p l : exists w, adv l w (bump_while p l) /\ Forall (fun c => p c = true) w /\
  match l_rest (bump_while p l) with [] => True | c :: _ => p c = false end.
Proof.
  unfold bump_while, adv. destruct (take_while_spec p (l_rest l) (l_pos l)) as (w & E1 & E2 & E3 & E4).
  destruct (take_while p (l_rest l) (l_pos l)) as [r pos]. cbn in *. now exists w.
Qed.
Lemma peekc_some l c : peekc l = Some c -> exists r, l_rest l = c :: r.
Proof. unfold peekc. destruct (l_rest l); [discriminate|]. intros [= ->]. eauto. Qed.
Lemma peekc_none l : peekc l = None -> l_rest l = [].
Proof. unfold peekc. destruct (l_rest l); [easy|discriminate]. Qed.

Lemma is_digit_digit c : is_digit c = true <-> digit c.
Proof. unfold is_digit, Lexer.between, digit. rewrite andb_true_iff, !N.leb_le. tauto. Qed.
Lemma is_nl_newline c : is_nl c = true <-> newline c.
Proof. unfold is_nl, newline. rewrite orb_true_iff, !N.eqb_eq. tauto. Qed.
Lemma is_ws_white c : is_ws c = true <-> white c.
Proof. unfold is_ws, is_nl, white. rewrite !orb_true_iff, !N.eqb_eq. tauto. Qed.

Lemma skip_line_spec r pos : exists w, r = w ++ fst (skip_line r pos) /\
  snd (skip_line r pos) = pos + blen w /\
  ((exists body nl, w = body ++ [nl] /\ Forall (fun c => ~ newline c) body /\ newline nl)
   \/ (fst (skip_line r pos) = [] /\ Forall (fun c => ~ newline c) w)).
Proof.
  revert pos. induction r as [|c r IH]; intros pos; cbn.
  - exists []. cbn. repeat split; [lia|]. right. now split.
  - destruct (is_nl c) eqn:E.
    + exists [c]. cbn. repeat split; [lia|]. left. exists [], c. repeat split; [constructor|].
      now apply is_nl_newline.
    + destruct (IH (pos + utf8_len c)) as (w & E1 & E2 & E3).
      assert (N : ~ newline c) by (rewrite <- is_nl_newline; congruence).
      exists (c :: w). cbn. repeat split; [congruence|lia|].
      destruct E3 as [(body & nl & -> & Hb & Hn)|(E3 & Hw)].
      * left. exists (c :: body), nl. repeat split; [now constructor|easy].
      * right. split; [easy|now constructor].
Qed.

Lemma ends_comment_cons c t : ends_comment (c :: t) <->
  (c = 42%N /\ exists t', t = 47%N :: t') \/ ends_comment t.
Proof.
  split.
  - intros ([|a0 a] & b & E); cbn in E; injection E as E1 E2.
    + left. eauto.
    + right. now exists a, b.
  - intros [(-> & t' & ->)|(a & b & ->)].
    + now exists [], t'.
    + now exists (c :: a), b.
Qed.

Lemma skip_block_spec r : forall pos, exists w, r = w ++ fst (snd (skip_block r pos)) /\
  snd (snd (skip_block r pos)) = pos + blen w /\
  (if fst (skip_block r pos)
   then exists body, w = body ++ txt "*/" /\ ~ ends_comment (body ++ txt "*")
   else fst (snd (skip_block r pos)) = []).
Proof.
  assert (G : forall n r, length r <= n -> forall pos, exists w, r = w ++ fst (snd (skip_block r pos)) /\
    snd (snd (skip_block r pos)) = pos + blen w /\
    (if fst (skip_block r pos)
     then exists body, w = body ++ txt "*/" /\ ~ ends_comment (body ++ txt "*")
     else fst (snd (skip_block r pos)) = [])); [|intros; eapply G; eauto].
  clear r. induction n as [|n IH]; intros r L pos.
  { destruct r; [|cbn in L; lia]. exists []. cbn. repeat split; lia. }
  destruct r as [|c r]; [exists []; cbn; repeat split; lia|]. cbn in L.
  cbn [skip_block]. destruct (N.eqb_spec c 42) as [->|Hc].
  - destruct r as [|d r]; [exists [42%N]; cbn; repeat split; lia|].
    destruct (N.eqb_spec d 47) as [->|Hd].
    + exists [42%N; 47%N]. cbn -[ends_comment]. repeat split; [lia|]. exists []. split; [easy|].
      intros (a & b & E). destruct a as [|a0 [|a1 a]]; cbn in E; congruence.
    + destruct (IH (d :: r)) with (pos := pos + utf8_len 42) as (w & E1 & E2 & E3); [cbn in *; lia|].
      exists (42%N :: w). set (s := skip_block (d :: r) (pos + utf8_len 42)) in *.
      cbn [app blen]. repeat split; [congruence|lia|].
      destruct (fst s); [|easy]. destruct E3 as (body & -> & Hb). exists (42%N :: body).
      split; [easy|]. cbn [app]. rewrite ends_comment_cons. intros [(_ & t' & E)|E]; [|easy].
      destruct body as [|b0 body]; cbn in E, E1; congruence.
  - destruct (IH r) with (pos := pos + utf8_len c) as (w & E1 & E2 & E3); [lia|].
    exists (c :: w). set (s := skip_block r (pos + utf8_len c)) in *.
    cbn [app blen]. repeat split; [congruence|lia|].
    destruct (fst s); [|easy]. destruct E3 as (body & -> & Hb). exists (c :: body).
    split; [easy|]. cbn [app]. rewrite ends_comment_cons. tauto.
Qed.

(** Scanning a quoted string: the body, then the closing quote. *)
Lemma scan_string_spec q r : q <> 92%N -> forall pos, exists w, r = w ++ fst (snd (scan_string q r pos)) /\
  snd (snd (scan_string q r pos)) = pos + blen w /\
  match fst (scan_string q r pos) with
  | Some i => exists body, w = body ++ [q] /\ i = pos + blen body /\ string_body q body /\
                ~ starts (fun c => c = q) (fst (snd (scan_string q r pos)))
  | None => fst (snd (scan_string q r pos)) = []
  end.
Proof.
  intros Q92. remember (length r) as n eqn:Hn.
  assert (L : length r <= n) by lia. clear Hn. revert r L.
  induction n as [|n IH]; intros r L pos.
  { destruct r; [|cbn in L; lia]. exists []. cbn. repeat split; lia. }
  assert (K : forall pre r' p', r = pre ++ r' -> pre <> [] -> p' = pos + blen pre ->
    (forall b, string_body q b -> string_body q (pre ++ b)) ->
    exists w, r = w ++ fst (snd (scan_string q r' p')) /\
      snd (snd (scan_string q r' p')) = pos + blen w /\
      match fst (scan_string q r' p') with
      | Some i => exists body, w = body ++ [q] /\ i = pos + blen body /\ string_body q body /\
                    ~ starts (fun c => c = q) (fst (snd (scan_string q r' p')))
      | None => fst (snd (scan_string q r' p')) = []
      end).
  { intros pre r' p' Er Hp -> SB.
    assert (L' : length r' <= n).
    { rewrite Er, app_length in L. destruct pre; [easy|]. cbn in L. lia. }
    destruct (IH r' L' (pos + blen pre)) as (w & E1 & E2 & E3).
    exists (pre ++ w). rewrite blen_app, <- app_assoc, <- E1. repeat split; [easy|lia|].
    destruct (fst (scan_string q r' (pos + blen pre))); [|easy].
    destruct E3 as (body & -> & -> & B & St). exists (pre ++ body).
    rewrite <- app_assoc, blen_app. repeat split; [lia|auto|exact St]. }
  destruct r as [|c r]; [exists []; cbn; repeat split; lia|].
  cbn [scan_string]. destruct (N.eqb_spec c 92) as [->|Hc].
  - destruct r as [|d r]; [exists [92%N]; cbn; repeat split; lia|].
    apply (K [92%N; d] r); cbn; [easy|easy|lia|now constructor].
  - destruct (N.eqb_spec c q) as [->|Hq].
    + assert (S : forall r0, ~ starts (fun c => c = q) r0 ->
                 exists w, q :: r0 = w ++ r0 /\ pos + utf8_len q = pos + blen w /\
                 exists body, w = body ++ [q] /\ pos = pos + blen body /\ string_body q body /\
                    ~ starts (fun c => c = q) r0).
      { intros r0 Hr0. exists [q]. cbn. repeat split; [lia|]. exists []. cbn. repeat split; [lia|constructor|exact Hr0]. }
      destruct r as [|d r]; [apply S; auto|].
      destruct (N.eqb_spec d q) as [->|Hd]; [|apply S; cbn; congruence].
      apply (K [q; q] r); cbn; [easy|easy|lia|now constructor].
    + apply (K [c] r); cbn; [easy|easy|lia|now constructor].
Qed.

Lemma match_letters_spec w : forall l, exists v, adv l v (snd (match_letters w l)) /\
  (fst (match_letters w l) = true -> upper v = w).
Proof.
  induction w as [|x w IH]; intros l; cbn.
  - exists []. split; [apply adv_refl|easy].
  - destruct (peekc l) as [c|] eqn:E; [|exists []; cbn; split; [apply adv_refl|easy]].
    destruct (N.eqb_spec (to_upper c) x) as [Hc|_]; [|exists []; cbn; split; [apply adv_refl|easy]].
    apply peekc_some in E as (r & E). destruct (bump_adv l c r E) as [A _].
    destruct (IH (bump l)) as (v & A' & Hv). exists (c :: v). split.
    + exact (adv_trans _ _ _ _ _ A A').
    + intros H. change (upper (c :: v)) with (to_upper c :: upper v). now rewrite Hv, Hc.
Qed.

Definition dec_from (v : N) (t : text) : N := fold_left (fun v c => (v * 10 + (c - 48))%N) t v.
Lemma dec_from_mono ds v v' : (v <= v')%N -> (dec_from v ds <= dec_from v' ds)%N.
Proof.
  revert v v'. unfold dec_from. induction ds as [|c ds IH]; intros v v' H; cbn; [easy|]. apply IH. nia.
Qed.
Lemma dollar_digits_spec v r pos : (v <= usize_max)%N ->
  match dollar_digits v r pos with
  | Some (n, (r', pos')) => exists ds, r = ds ++ r' /\ pos' = pos + blen ds /\ Forall digit ds /\ n = dec_from v ds /\
      ~ starts digit r' /\ (n <= usize_max)%N
  | None => exists ds post, r = ds ++ post /\ Forall digit ds /\ (usize_max < dec_from v ds)%N
  end.
Proof.
  revert v pos. induction r as [|c r IH]; intros v pos Hv; cbn [dollar_digits].
  - exists []. cbn -[usize_max]. repeat split; auto.
  - destruct (is_digit c) eqn:E.
    + apply is_digit_digit in E. destruct (N.ltb_spec usize_max (v * 10 + (c - 48))) as [Hl|Hl].
      * exists [c], r. split; [easy|split; [constructor; [easy|constructor]|easy]].
      * specialize (IH (v * 10 + (c - 48))%N (pos + utf8_len c) Hl).
        destruct (dollar_digits _ r _) as [[n [r' pos']]|].
        -- destruct IH as (ds & -> & -> & Hd & -> & Hs & Hm). exists (c :: ds). cbn [app blen].
           repeat split; auto. lia.
        -- destruct IH as (ds & post & -> & Hd & Hm). exists (c :: ds), post. repeat split; auto.
    + exists []. cbn -[usize_max]. repeat split; auto. rewrite <- is_digit_digit. congruence.
Qed.
Lemma dec_from_ge v ds : (v <= dec_from v ds)%N.
Proof. revert v. unfold dec_from. induction ds as [|c ds IH]; intros v; cbn; [lia|]. specialize (IH (v * 10 + (c - 48))%N). lia. Qed.

(** ** One step of the lexer *)
(** A piece of the text between tokens. *)
Definition piece (w rest : text) : Prop :=
  trivia w \/ (rest = [] /\ exists o body, (o = txt "--" \/ o = txt "//") /\
                 Forall (fun c => ~ newline c) body /\ w = o ++ body).
Definition lexed (l : lex) (t : tok) (l' : lex) : Prop :=
  exists w, adv l w l' /\ w <> [] /\ tok_text t w /\ t <> TEof /\ ends t (l_rest l').
Definition lex_panic (src : text) (w : panic) : Prop :=
  (w = PHexLiteral /\ has_hex src) \/ (w = PDollarOverflow /\ has_big_dollar src).
Definition tres_ok (l : lex) (r : lres tok) : Prop :=
  match r with LPanic w => lex_panic (l_src l) w | LOk t l' => lexed l t l' end.
Definition lres_ok (l : lex) (r : lres (option tok)) : Prop :=
  match r with
  | LPanic w => lex_panic (l_src l) w
  | LOk None l' => exists w, adv l w l' /\ w <> [] /\ piece w (l_rest l')
  | LOk (Some t) l' => lexed l t l'
  end.
Lemma tres_lres l r : tres_ok l r ->
  lres_ok l match r with LOk t l => LOk (Some t) l | LPanic w => LPanic w end.
Proof. destruct r; exact id. Qed.

Lemma trivia_app a b : trivia a -> trivia b -> trivia (a ++ b).
Proof.
  intros H. revert b. induction H; intros b Hb; cbn [app].
  - easy.
  - constructor; auto.
  - rewrite <- !app_assoc. cbn [app]. apply tr_line; auto.
  - rewrite <- !app_assoc. apply tr_block; auto.
Qed.

Lemma kw_of_text_cases t :
  kw_of_text t = NOT_A_KEYWORD \/ exists s, kw_of_text t = KW s /\ In s keywords_table /\ txt s = t.
Proof.
  unfold kw_of_text. destruct (find _ _) as [k|] eqn:E; [right|now left].
  apply find_some in E as [H1 H2]. apply text_eqb_eq in H2. eauto.
Qed.
Lemma tok_text_word v : word v -> tok_text (TIdent v (kw_of_text (upper v))) v.
Proof. intros W. cbn. destruct (kw_of_text_cases (upper v)) as [->|(s & -> & _)]; auto. Qed.

Lemma is_alpha_letter c : is_alpha_ c = true <-> letter c.
Proof.
  unfold is_alpha_, Lexer.between, letter. rewrite !orb_true_iff, !andb_true_iff, !N.leb_le, N.eqb_eq. tauto.
Qed.
Lemma is_word_spec c : is_word c = true <-> letter c \/ digit c.
Proof. unfold is_word. rewrite orb_true_iff, is_alpha_letter, is_digit_digit. tauto. Qed.
Lemma is_quoted_word_spec c : is_quoted_word c = true <-> letter c \/ digit c \/ c = 45%N.
Proof. unfold is_quoted_word. rewrite orb_true_iff, is_word_spec, N.eqb_eq. tauto. Qed.
Lemma peek_is_spec l c : if peek_is l c then exists r, l_rest l = c :: r
                         else match l_rest l with d :: _ => d <> c | [] => True end.
Proof.
  unfold peek_is, peekc. destruct (l_rest l) as [|d r]; [easy|].
  destruct (N.eqb_spec d c) as [->|H]; eauto.
Qed.
Lemma Forall_impl' {A} (P Q : A -> Prop) l : (forall a, P a <-> Q a) -> Forall P l -> Forall Q l.
Proof. intros H. apply Forall_impl. firstorder. Qed.

(** The scanners of words, strings, numbers. *)
Lemma simple_literal_spec l0 c r : lwf l0 -> l_rest l0 = c :: r -> letter c ->
  (to_upper c = 88%N -> ~ starts (chars "'") r) ->
  tres_ok l0 (simple_literal (l_pos l0) (bump l0)).
Proof.
  intros W E C X. destruct (bump_adv l0 c r E) as [A R]. unfold simple_literal, with_s.
  destruct (bump_while_spec is_word (bump l0)) as (w & A' & F & En).
  pose proof (adv_trans _ _ _ _ _ A A') as AA. cbn [app] in AA.
  rewrite (peek_pos_pos _ (adv_lwf _ _ _ W AA)), (lex_s_adv _ _ _ W AA).
  exists (c :: w). split; [easy|]. split; [easy|]. split; [|split; [easy|]].
  - apply tok_text_word. exists c, w. repeat split; auto. eapply Forall_impl', F. apply is_word_spec.
  - assert (G : ~ starts (fun c => letter c \/ digit c) (l_rest (bump_while is_word (bump l0))) /\
      ~ (upper (c :: w) = txt "X" /\ starts (chars "'") (l_rest (bump_while is_word (bump l0))))).
    { split.
      - destruct (l_rest (bump_while is_word (bump l0))); [easy|]. cbn. rewrite <- is_word_spec. congruence.
      - intros [U St]. destruct w; [|discriminate U]. injection U as U.
        destruct A' as (_ & Er & _). rewrite R in Er. cbn in Er. rewrite <- Er in St. now apply X in U. }
    cbn [ends]. destruct (kw_of_text_cases (upper (c :: w))) as [->|(s & -> & _)]; exact G.
Qed.

Lemma lex_string_spec q f l0 r : lwf l0 -> l_rest l0 = q :: r -> utf8_len q = 1 -> q <> 92%N ->
  (forall v r, string_body q v -> tok_text (f v) ([q] ++ v ++ [q]) /\ f v <> TEof /\
     (~ starts (fun c => c = q) r -> ends (f v) r)) ->
  tres_ok l0 (lex_string q f (l_pos l0) (bump l0)).
Proof.
  intros W E U Q F. destruct (bump_adv l0 q r E) as [A _]. unfold lex_string, with_s.
  destruct (scan_string_spec q (l_rest (bump l0)) Q (l_pos (bump l0))) as (w & E1 & E2 & E3).
  destruct (scan_string q (l_rest (bump l0)) (l_pos (bump l0))) as [o [r' pos']]. cbn [fst snd] in *.
  assert (A' : adv (bump l0) w (mkLex (l_src (bump l0)) r' pos')) by (repeat split; auto).
  pose proof (adv_trans _ _ _ _ _ A A') as AA. cbn [app] in AA.
  destruct o as [i|].
  - destruct E3 as (body & -> & -> & B & St).
    assert (P : l_pos (bump l0) = l_pos l0 + 1).
    { destruct A as (_ & _ & ->). cbn. lia. }
    rewrite P. change (q :: body ++ [q]) with ([q] ++ body ++ [q]) in AA.
    pose proof (lex_s_inner _ _ _ _ _ W AA) as S. cbn [blen] in S. rewrite U, Nat.add_0_r in S. rewrite S.
    exists ([q] ++ body ++ [q]). destruct (F body r' B) as (F1 & F2 & F3). split; [exact AA|]. repeat split; auto. easy.
  - exists (q :: w). now repeat split; try apply AA.
Qed.

Lemma lex_number_spec l0 c r : lwf l0 -> l_rest l0 = c :: r -> digit c ->
  tres_ok l0 (lex_number (l_pos l0) (bump l0)).
Proof.
  intros W E C. destruct (bump_adv l0 c r E) as [A _]. unfold lex_number, with_s.
  destruct (bump_while_spec is_digit (bump l0)) as (w & A' & F & En).
  set (l1 := bump_while is_digit (bump l0)) in *.
  pose proof (adv_trans _ _ _ _ _ A A') as AA. cbn [app] in AA.
  apply (Forall_impl' _ _ _ is_digit_digit) in F.
  pose proof (peek_is_spec l1 46) as P. destruct (peek_is l1 46).
  - destruct P as (r' & P). destruct (bump_adv l1 _ r' P) as [B _].
    destruct (bump_while_spec is_digit (bump l1)) as (w2 & B' & F2 & En2).
    apply (Forall_impl' _ _ _ is_digit_digit) in F2.
    set (l2 := bump_while is_digit (bump l1)) in *.
    pose proof (adv_trans _ _ _ _ _ AA (adv_trans _ _ _ _ _ B B')) as AB.
    rewrite (peek_pos_pos _ (adv_lwf _ _ _ W AB)), (lex_s_adv _ _ _ W AB).
    eexists. split; [exact AB|]. split; [easy|]. split; [|split; [easy|]].
    { cbn [tok_text]. split; [easy|]. exists (c :: w), w2. repeat split; auto. left. easy. }
    cbn. destruct (l_rest l2); [easy|]. cbn. rewrite <- is_digit_digit. congruence.
  - rewrite (peek_pos_pos _ (adv_lwf _ _ _ W AA)), (lex_s_adv _ _ _ W AA).
    eexists. split; [exact AA|]. split; [easy|]. split; [|split; [easy|]].
    { cbn [tok_text]. repeat split; auto. easy. }
    cbn. destruct (l_rest l1); [easy|]. cbn. intros [H|H]; [|easy]. apply is_digit_digit in H. congruence.
Qed.

Ltac fin := solve [ reflexivity | discriminate | intros; exact I
  | intros [|? ?] ?; cbn; [now intros []|]; intuition ].
Ltac ends2 := cbn; repeat match goal with
  | H : match l_rest ?l with [] => True | _ :: _ => _ end |- _ => revert H
  end; match goal with |- context[l_rest ?l] => destruct (l_rest l) end; cbn; [intuition|intuition congruence].
Lemma lex_char_spec l0 c r : lwf l0 -> l_rest l0 = c :: r ->
  lres_ok l0 (lex_char (l_pos l0) c (bump l0)).
Proof.
  intros W E. destruct (bump_adv l0 c r E) as [A R].
  pose proof (adv_lwf _ _ _ W A) as W1.
  assert (one : forall t, tok_text t [c] -> t <> TEof -> ends t (l_rest (bump l0)) -> lexed l0 t (bump l0)).
  { intros t Ht Hn He. exists [c]. now repeat split; try apply A. }
  assert (two : forall t d, peek_is (bump l0) d = true -> tok_text t [c; d] -> t <> TEof ->
                 ends t (l_rest (bump (bump l0))) -> lexed l0 t (bump (bump l0))).
  { intros t d Hd Ht Hn He. pose proof (peek_is_spec (bump l0) d) as P. rewrite Hd in P. destruct P as (r' & P).
    destruct (bump_adv _ _ _ P) as [A' _]. pose proof (adv_trans _ _ _ _ _ A A') as AA.
    exists [c; d]. now repeat split; try apply AA. }
  assert (tk2 : forall d t1 t2, tok_text t1 [c; d] -> t1 <> TEof -> tok_text t2 [c] -> t2 <> TEof ->
                 (forall r, ends t1 r) -> (forall r, match r with e :: _ => e <> d | [] => True end -> ends t2 r) ->
                 tres_ok l0 (tok2 d t1 t2 (bump l0))).
  { intros d t1 t2 H1 H2 H3 H4 H5 H6. unfold tok2. pose proof (peek_is_spec (bump l0) d) as P.
    destruct (peek_is (bump l0) d) eqn:Ed; cbn; eauto. }
  assert (nst : forall (r : text) s, match r with e :: _ => ~ chars s e | [] => True end -> ~ starts (chars s) r).
  { intros [|e r0] s H; [easy|exact H]. }
  unfold lex_char.
  destruct (is_ws c) eqn:Ews.
  { exists [c]. split; [apply A|]. split; [easy|]. left. apply is_ws_white in Ews. apply tr_white; [easy|constructor]. }
  clear Ews.
  repeat (match goal with
  | |- lres_ok _ (if (c =? ?n)%N then match tok1 _ _ with LOk _ _ => _ | LPanic _ => _ end else _) =>
      destruct (N.eqb_spec c n) as [->|_]; [apply one; [reflexivity|discriminate|exact I]|]
  | |- lres_ok _ (if (c =? ?n)%N then match tok2 ?d ?t1 ?t2 ?l with LOk _ _ => _ | LPanic _ => _ end else _) =>
      destruct (N.eqb_spec c n) as [->|_];
      [ apply tres_lres, tk2; fin | ]
  end).
  destruct (N.eqb_spec c 64) as [->|_].
  { apply tres_lres. pose proof (peek_is_spec (bump l0) 64) as P. destruct (peek_is (bump l0) 64) eqn:Ep.
    - destruct P as (r' & P). destruct (bump_adv _ _ _ P) as [A' _]. pose proof (adv_trans _ _ _ _ _ A A') as AA.
      assert (inv : lexed l0 TInvalid (bump (bump l0))) by (now apply (two _ 64%N)).
      assert (ml : forall w t, (forall v, upper v = w -> tok_text t ([64%N; 64%N] ++ v)) -> t <> TEof -> (forall r, ends t r) ->
        tres_ok l0 (let (ok, l) := match_letters w (bump (bump l0)) in LOk (if ok then t else TInvalid) l)).
      { intros w t Ht Hn He. destruct (match_letters_spec w (bump (bump l0))) as (v & B & Hv).
        destruct (match_letters w (bump (bump l0))) as [ok l]. cbn [fst snd] in *.
        exists ([64%N; 64%N] ++ v). split; [exact (adv_trans _ _ _ _ _ AA B)|]. split; [easy|].
        destruct ok; [|easy]. split; [apply Ht, Hv; reflexivity|split; [easy|apply He]]. }
      destruct (peekc (bump (bump l0))) as [d|]; [|exact inv].
      destruct (to_upper d =? 83)%N; [apply ml; [intros v Hv; cbn [tok_text]; unfold upper; rewrite map_app; fold upper; change (map to_upper v) with (upper v); rewrite Hv; reflexivity|easy|intros; exact I]|].
      destruct (to_upper d =? 71)%N; [apply ml; [intros v Hv; cbn [tok_text]; unfold upper; rewrite map_app; fold upper; change (map to_upper v) with (upper v); rewrite Hv; reflexivity|easy|intros; exact I]|]. exact inv.
    - apply one; [reflexivity|easy|ends2]. }
  do 2 (match goal with
  | |- lres_ok _ (if (c =? ?n)%N then match tok1 _ _ with LOk _ _ => _ | LPanic _ => _ end else _) =>
      destruct (N.eqb_spec c n) as [->|_]; [apply one; [reflexivity|discriminate|exact I]|]
  | |- lres_ok _ (if (c =? ?n)%N then match tok2 ?d ?t1 ?t2 ?l with LOk _ _ => _ | LPanic _ => _ end else _) =>
      destruct (N.eqb_spec c n) as [->|_];
      [ apply tres_lres, tk2; fin | ]
  end).
  destruct (N.eqb_spec c 36) as [->|_].
  { apply tres_lres. destruct (peekc (bump l0)) as [d|] eqn:Ed; [|now apply one].
    destruct (N.eqb_spec d 36) as [->|_].
    { apply (two TDoubleDollar 36%N); [unfold peek_is; now rewrite Ed|reflexivity|easy|exact I]. }
    destruct (Lexer.between 49 57 d) eqn:Eb; [|now apply one].
    unfold Lexer.between in Eb. rewrite andb_true_iff, !N.leb_le in Eb.
    apply peekc_some in Ed as (r' & Ed). destruct (bump_adv _ _ _ Ed) as [A' R'].
    pose proof (adv_trans _ _ _ _ _ A A') as AA.
    assert (D : digit d) by (unfold digit; lia).
    assert (V : forall ds, dec_from (d - 48) ds = dec_value (d :: ds)) by (intros; reflexivity).
    assert (U : (d - 48 <= usize_max)%N) by (apply (N.le_trans _ 9); [lia|discriminate]).
    pose proof (dollar_digits_spec (d - 48) (l_rest (bump (bump l0))) (l_pos (bump (bump l0))) U) as S.
    destruct (dollar_digits _ _ _) as [[n [r2 pos2]]|].
    - destruct S as (ds & E1 & E2 & Fd & -> & Hs & Hm).
      exists ([36%N; d] ++ ds). split.
      { eapply adv_trans; [exact AA|]. repeat split; cbn; auto. now destruct A', A. }
      split; [easy|]. split; [|split; [easy|exact Hs]]. exists d, ds. rewrite <- V. repeat split; auto; lia.
    - destruct S as (ds & post & E1 & Fd & Hv). right. split; [easy|].
      destruct W as (pre & Ws & _). exists pre, (d :: ds), post. rewrite Ws, E.
      rewrite R' in E1. rewrite R in Ed. rewrite Ed, E1. repeat split; [now constructor|].
      rewrite <- V. exact Hv. }
  destruct (N.eqb_spec c 61) as [->|_]; [apply tres_lres, tk2; fin|].
  destruct (N.eqb_spec c 33) as [->|_].
  { apply tres_lres. pose proof (peek_is_spec (bump l0) 61) as Q1. pose proof (peek_is_spec (bump l0) 33) as Q2.
    destruct (peek_is (bump l0) 61) eqn:P1; [apply (two _ 61%N); cbn; auto; discriminate|].
    destruct (peek_is (bump l0) 33) eqn:P2; [apply (two _ 33%N); cbn; auto; discriminate|].
    apply one; [reflexivity|easy|ends2]. }
  destruct (N.eqb_spec c 60) as [->|_].
  { apply tres_lres. pose proof (peek_is_spec (bump l0) 61) as Q1. pose proof (peek_is_spec (bump l0) 62) as Q2.
    pose proof (peek_is_spec (bump l0) 60) as Q3. destruct (peek_is (bump l0) 61) eqn:P1.
    { pose proof (peek_is_spec (bump l0) 61) as P. rewrite P1 in P. destruct P as (r' & P).
      destruct (bump_adv _ _ _ P) as [A' _]. pose proof (adv_trans _ _ _ _ _ A A') as AA.
      unfold tok2. pose proof (peek_is_spec (bump (bump l0)) 62) as P'. destruct (peek_is (bump (bump l0)) 62).
      - destruct P' as (r'' & P'). destruct (bump_adv _ _ _ P') as [A'' _].
        exists [60%N; 61%N; 62%N]. split; [exact (adv_trans _ _ _ _ _ AA A'')|]. repeat split; easy.
      - exists [60%N; 61%N]. split; [exact AA|]. split; [easy|]. split; [easy|]. split; [easy|]. clear Q1 Q2 Q3. ends2. }
    destruct (peek_is (bump l0) 62) eqn:P2; [apply (two _ 62%N); cbn; auto; discriminate|].
    destruct (peek_is (bump l0) 60) eqn:P3; [apply (two _ 60%N); cbn; auto; discriminate|].
    apply one; [reflexivity|easy|ends2]. }
  destruct (N.eqb_spec c 62) as [->|_].
  { apply tres_lres. pose proof (peek_is_spec (bump l0) 61) as Q1. pose proof (peek_is_spec (bump l0) 62) as Q2.
    destruct (peek_is (bump l0) 61) eqn:P1; [apply (two _ 61%N); cbn; auto; discriminate|].
    destruct (peek_is (bump l0) 62) eqn:P2; [apply (two _ 62%N); cbn; auto; discriminate|].
    apply one; [reflexivity|easy|ends2]. }
  destruct (N.eqb_spec c 124) as [->|_]; [apply tres_lres, tk2; fin|].
  assert (line : forall o, peek_is (bump l0) c = true -> o = [c; c] -> (o = txt "--" \/ o = txt "//") ->
    lres_ok l0 (let (r0, pos) := skip_line (l_rest (bump l0)) (l_pos (bump l0)) in
                LOk None {| l_src := l_src (bump l0); l_rest := r0; l_pos := pos |})).
  { intros o Hp Ho Hoo. pose proof (peek_is_spec (bump l0) c) as P. rewrite Hp in P. destruct P as (r' & P).
    assert (Hc : is_nl c = false).
    { destruct Hoo as [H|H]; rewrite H in Ho; injection Ho as <-; reflexivity. }
    rewrite P. cbn [skip_line]. rewrite Hc.
    destruct (bump_adv _ _ _ P) as [A' _].
    destruct (skip_line_spec r' (l_pos (bump l0) + utf8_len c)) as (w & E1 & E2 & E3).
    destruct (skip_line r' (l_pos (bump l0) + utf8_len c)) as [r2 pos2]. cbn [fst snd] in *.
    exists (o ++ w). split.
    { rewrite Ho. change ([c; c] ++ w) with ([c] ++ c :: w). eapply adv_trans; [exact A|].
      repeat split; cbn; [now rewrite P, E1|lia]. }
    split; [now rewrite Ho|]. cbn [l_rest].
    destruct E3 as [(body & nl & -> & Hb & Hn)|(Hr & Hw)].
    - left. apply tr_line; auto. constructor.
    - right. split; [exact Hr|]. exists o, w. auto. }
  destruct (N.eqb_spec c 45) as [->|_].
  { pose proof (peek_is_spec (bump l0) 45) as Q1.
    destruct (peek_is (bump l0) 45) eqn:P; [|apply one; [reflexivity|easy|ends2]]. apply (line (txt "--")); auto. }
  destruct (N.eqb_spec c 47) as [->|_].
  { pose proof (peek_is_spec (bump l0) 42) as P. destruct (peek_is (bump l0) 42).
    - destruct P as (r' & P). destruct (bump_adv _ _ _ P) as [A' _]. pose proof (adv_trans _ _ _ _ _ A A') as AA.
      destruct (skip_block_spec (l_rest (bump (bump l0))) (l_pos (bump (bump l0)))) as (w & E1 & E2 & E3).
      destruct (skip_block _ _) as [b [r2 pos2]]. cbn [fst snd] in *.
      assert (AW : adv l0 ([47%N; 42%N] ++ w) (mkLex (l_src (bump l0)) r2 pos2)).
      { eapply adv_trans; [exact AA|]. repeat split; cbn; auto. now destruct A', A. }
      destruct b.
      + destruct E3 as (body & -> & Hb). exists ([47%N; 42%N] ++ body ++ txt "*/"). split; [exact AW|].
        split; [easy|]. left. rewrite <- (app_nil_r (txt "*/")). apply tr_block; [easy|constructor].
      + eexists. split; [exact AW|]. easy.
    - pose proof (peek_is_spec (bump l0) 47) as Q1.
      destruct (peek_is (bump l0) 47) eqn:P2; [|apply one; [reflexivity|easy|ends2]]. apply (line (txt "//")); auto. }
  destruct ((c =? 120) || (c =? 88))%N eqn:Ex.
  { assert (C : c = 120%N \/ c = 88%N) by (rewrite orb_true_iff, !N.eqb_eq in Ex; exact Ex).
    pose proof (peek_is_spec (bump l0) 39) as P. destruct (peek_is (bump l0) 39).
    - destruct P as (r' & P). left. split; [easy|]. destruct W as (pre & Ws & _).
      exists pre, c, r'. split; [|easy]. rewrite Ws, E. now rewrite R in P; rewrite P.
    - apply tres_lres, (simple_literal_spec l0 c r); auto; [unfold letter; lia|].
      intros _. rewrite R in P. destruct r; cbn in *; [easy|]. unfold chars. cbn. intuition. }
  destruct (is_alpha_ c) eqn:Ea.
  { apply tres_lres, (simple_literal_spec l0 c r); auto; [now apply is_alpha_letter|].
    intros U. exfalso. rewrite orb_false_iff, !N.eqb_neq in Ex. unfold to_upper in U.
    destruct ((97 <=? c) && (c <=? 122))%N eqn:Eu; [|lia]. rewrite andb_true_iff, !N.leb_le in Eu. lia. }
  destruct (N.eqb_spec c 96) as [->|_].
  { apply tres_lres. destruct (bump_while_spec is_quoted_word (bump l0)) as (w & A' & F & _).
    set (l1 := bump_while is_quoted_word (bump l0)) in *.
    apply (Forall_impl' _ _ _ is_quoted_word_spec) in F.
    pose proof (adv_trans _ _ _ _ _ A A') as AA.
    pose proof (peek_is_spec l1 96) as P. destruct (peek_is l1 96).
    - destruct P as (r' & P). destruct (bump_adv _ _ _ P) as [B _].
      pose proof (adv_trans _ _ _ _ _ AA B) as AB. rewrite <- app_assoc in AB.
      pose proof (lex_s_inner _ _ _ _ _ W AB) as S. unfold with_s.
      assert (Q : l_pos l1 = l_pos l0 + blen [96%N] + blen w).
      { destruct AA as (_ & _ & ->). rewrite blen_app. lia. }
      rewrite Q. change (l_pos l0 + 1) with (l_pos l0 + blen [96%N]). rewrite S.
      eexists. split; [exact AB|]. repeat split; easy.
    - eexists. split; [exact AA|]. easy. }
  destruct (N.eqb_spec c 39) as [->|_].
  { apply tres_lres, (lex_string_spec 39 TSingleQuotedString l0 r); auto; try easy. }
  destruct (N.eqb_spec c 34) as [->|_].
  { apply tres_lres, (lex_string_spec 34 TDoubleQuotedString l0 r); auto; try easy. }
  destruct (is_digit c) eqn:Edg.
  { apply tres_lres, (lex_number_spec l0 c r); auto. now apply is_digit_digit. }
  destruct (N.eqb_spec c 46) as [->|_].
  { apply tres_lres. destruct (peekc (bump l0)) as [d|] eqn:Ed;
      [|apply one; [reflexivity|easy|]; apply peekc_none in Ed; rewrite Ed; easy].
    destruct (is_digit d) eqn:Eg;
      [|apply one; [reflexivity|easy|]; apply peekc_some in Ed as (r' & Ed); rewrite Ed; cbn;
        rewrite <- is_digit_digit; congruence].
    destruct (bump_while_spec is_digit (bump l0)) as (w & A' & F & H).
    set (l1 := bump_while is_digit (bump l0)) in *.
    apply (Forall_impl' _ _ _ is_digit_digit) in F.
    pose proof (adv_trans _ _ _ _ _ A A') as AA. unfold with_s.
    rewrite (peek_pos_pos _ (adv_lwf _ _ _ W AA)), (lex_s_adv _ _ _ W AA).
    eexists. split; [exact AA|]. split; [easy|]. split; [|split; [easy|]].
    2: { cbn. destruct (l_rest l1); [easy|]. cbn. rewrite <- is_digit_digit. congruence. }
    cbn [tok_text]. split; [easy|]. exists [], w. repeat split; auto. right. intros ->.
    apply peekc_some in Ed as (r' & Ed). destruct A' as (_ & A' & _). cbn in A'. rewrite <- A', Ed in H. congruence. }
  now apply one.
Qed.

(** ** [next_token] *)
Lemma lex_char_src l0 c r t l' : lwf l0 -> l_rest l0 = c :: r ->
  lex_char (l_pos l0) c (bump l0) = LOk t l' -> lwf l' /\ l_src l' = l_src l0 /\ length (l_rest l') < length (l_rest l0).
Proof.
  intros W E H. pose proof (lex_char_spec _ _ _ W E) as S. rewrite H in S.
  destruct t as [t|]; destruct S as (w & A & Hw & _);
    (split; [eapply adv_lwf; eauto|]; split; [apply A|]; apply adv_length in A; destruct w; [easy|]; cbn in A; lia).
Qed.

(** The outcome of [next_token]: a gap, then a token. *)
Inductive token_at (l : lex) : tok -> span -> lex -> Prop :=
| ta_tok g w l1 t l' : adv l g l1 -> trivia g -> adv l1 w l' -> w <> [] -> tok_text t w -> t <> TEof ->
    ends t (l_rest l') ->
    token_at l t (l_pos l1, l_pos l') l'
| ta_eof g l' : adv l g l' -> trivia_end g -> l_rest l' = [] ->
    token_at l TEof (blen (l_src l), blen (l_src l)) l'.

Lemma next_token_f_spec n : forall l, lwf l -> length (l_rest l) < n ->
  exists r, next_token_f n l = Some r /\
  match r with
  | LPanic w => lex_panic (l_src l) w
  | LOk (t, sp) l' => token_at l t sp l'
  end.
Proof.
  induction n as [|n IH]; intros l W L; [lia|]. cbn [next_token_f].
  destruct (l_rest l) as [|c r] eqn:E.
  { eexists. split; [reflexivity|]. apply (ta_eof l []); [apply adv_refl|repeat constructor|easy]. }
  pose proof (lex_char_spec l c r W E) as S.
  destruct (lex_char (l_pos l) c (bump l)) as [[t|] l'|w] eqn:El.
  - eexists. split; [reflexivity|]. destruct S as (w & A & Hw & Ht & Hn & He).
    rewrite (peek_pos_pos _ (adv_lwf _ _ _ W A)).
    apply (ta_tok l [] w l); auto using adv_refl, tr_nil.
  - destruct (lex_char_src _ _ _ _ _ W E El) as (W' & Es & Ll).
    destruct (IH l' W') as (res & Er & Hr); [rewrite E in Ll; lia|].
    exists res. split; [exact Er|]. destruct S as (w & A & Hw & P).
    destruct res as [[t sp] l2|pw]; [|now rewrite <- Es].
    destruct P as [P|(Hnil & o & body & Ho & Hb & ->)].
    + destruct Hr as [g w2 l1 t l3 A1 T1 A2 H2 H3 H4 H5|g l3 A1 T1 H2].
      * apply (ta_tok l (w ++ g) w2 l1); auto using trivia_app. eapply adv_trans; eauto.
      * rewrite Es. apply (ta_eof l (w ++ g)); auto; [eapply adv_trans; eauto|].
        destruct T1 as [t T1|t o body T1 Ho Hb]; [apply te_end, trivia_app; auto|].
        rewrite app_assoc. apply te_line; auto using trivia_app.
    + assert (Rn : forall g l2, adv l' g l2 -> g = [] /\ l_rest l2 = []).
      { intros g l5 (_ & B & _). rewrite Hnil in B. symmetry in B. now apply app_eq_nil in B. }
      destruct Hr as [g w2 l1 t l3 A1 T1 A2 H2 H3 H4 H5|g l3 A1 T1 H2].
      * destruct (Rn _ _ A1) as [-> R1]. destruct A2 as (_ & B & _). rewrite R1 in B. symmetry in B.
        apply app_eq_nil in B as [B _]. congruence.
      * destruct (Rn _ _ A1) as [-> R1]. rewrite Es.
        apply (ta_eof l (o ++ body)); auto.
        -- rewrite <- (app_nil_r (o ++ body)). eapply adv_trans; eauto.
        -- change (o ++ body) with ([] ++ o ++ body). apply te_line; auto using tr_nil.
  - eexists. split; [reflexivity|]. exact S.
Qed.

Theorem next_token_spec l : lwf l ->
  match next_token l with
  | LPanic w => lex_panic (l_src l) w
  | LOk (t, sp) l' => token_at l t sp l'
  end.
Proof.
  intros W. destruct (next_token_f_spec (S (length (l_rest l))) l W) as (r & E & H); [lia|].
  unfold next_token. now rewrite E.
Qed.

(** What the parser's invariants need of a token. *)
Lemma token_at_facts l t sp l' : lwf l -> token_at l t sp l' ->
  lwf l' /\ l_src l' = l_src l /\ l_pos l <= fst sp /\ fst sp <= snd sp /\ snd sp <= l_pos l' /\
  (exists w, at_span (l_src l) sp w /\ tok_text t w) /\
  (t = TEof -> l_rest l' = []) /\
  (t <> TEof -> length (l_rest l') < length (l_rest l)) /\
  length (l_rest l') <= length (l_rest l) /\
  (l_rest l = [] -> t = TEof).
Proof.
  intros W H. destruct H as [g w l1 t l' A1 T1 A2 Hw Ht Hn He|g l' A1 T1 Hr].
  - pose proof (adv_lwf _ _ _ W A1) as W1. pose proof (adv_lwf _ _ _ W1 A2) as W2.
    pose proof (adv_length _ _ _ A1) as L1. pose proof (adv_length _ _ _ A2) as L2.
    assert (length w <> 0) by (destruct w; [easy|cbn; lia]).
    destruct A1 as (S1 & R1 & P1), A2 as (S2 & R2 & P2). cbn [fst snd].
    repeat split; auto; try congruence; try lia.
    + exists w. split; [|easy]. destruct W1 as (pre & Ws & Wp). exists pre, (l_rest l').
      cbn [fst snd]. rewrite <- S1, Ws, R2. repeat split; auto. lia.
    + intros E. rewrite E in L1. cbn in L1. lia.
  - pose proof (adv_lwf _ _ _ W A1) as W1. pose proof (adv_length _ _ _ A1) as L1.
    assert (P : l_pos l' = blen (l_src l)).
    { destruct W1 as (pre & Ws & ->). rewrite Hr, app_nil_r in Ws. destruct A1 as (S1 & _). now rewrite <- S1, Ws. }
    destruct A1 as (S1 & R1 & P1). cbn [fst snd].
    repeat split; auto; try congruence; try lia.
    exists []. split; [|easy]. exists (l_src l), []. cbn. rewrite app_nil_r. repeat split; lia.
Qed.
Lemma token_at_gap l t sp l' : lwf l -> token_at l t sp l' ->
  gap_at (l_src l) (l_pos l) (fst sp) /\ snd sp = l_pos l'.
Proof.
  intros (pre & Ws & Wp) H. destruct H as [g w l1 t l' A1 T1 A2 Hw Ht Hn He|g l' A1 T1 Hr]; cbn [fst snd].
  - destruct A1 as (S1 & R1 & P1). split; [|reflexivity]. exists pre, g, (l_rest l1). rewrite Ws, R1.
    repeat split; auto; [lia|now left].
  - destruct A1 as (S1 & R1 & P1). rewrite Hr in R1. split.
    + exists pre, g, []. rewrite Ws, R1, !app_nil_r. repeat split; auto; [now rewrite blen_app|right; auto].
    + rewrite P1, Ws, R1, !app_nil_r, blen_app. lia.
Qed.
Lemma gap_at_le src a b : gap_at src a b -> a <= b.
Proof. intros (p & g & r & _ & -> & -> & _). lia. Qed.
