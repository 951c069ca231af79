(** C56: layout does not matter.

    Two sources with the same tokens, however they are laid out, have the same AST; its spans are at the places to which the tokens
    have been moved.  So it makes no difference to the parser whether there is white space between two tokens, or a comment, or how much. *)
From Verif Require Import PropsSafe PropsScript.
From Verif Require Export LayTop PropsKeep.
From Coq Require Import Sorting.Sorted.
Local Open Scope string_scope.
Local Open Scope list_scope.

(** ** The specification *)
Definition monotone (g : nat -> nat) : Prop := forall a b, a <= b -> g a <= g b.
(** A start at [p] is moved to [g p], an end at [p] to [h p]. *)
Definition move (g h : nat -> nat) (s : span) : span := (g (fst s), h (snd s)).
Definition moved (g h : nat -> nat) (ts : list (tok * span)) : list (tok * span) := map (fun x => (fst x, move g h (snd x))) ts.
(** The same issue with its fragments, at the other place. *)
Definition moved_fragment (g h : nat -> nat) (a b : fragment) : Prop := f_message b = f_message a /\ f_span b = move g h (f_span a).
Definition moved_issue (g h : nat -> nat) (a b : issue) : Prop :=
  i_level b = i_level a /\ i_message b = i_message a /\ i_span b = move g h (i_span a) /\ Forall2 (moved_fragment g h) (i_fragments a) (i_fragments b).
(** Where the first token starts. *)
Definition first_at (ts : list (tok * span)) : nat := match ts with x :: _ => fst (snd x) | [] => 0 end.

(** ** The entry points *)
(** Two runs of the parser; with [case] the reserved words may be spelled in another way. *)
Section Runs.
Variables (g h : nat -> nat) (src src' : text) (ts ts' : list (tok * span)) (o : options) (case : bool).
Hypothesis Mg : monotone g.
Hypothesis Mh : monotone h.
Hypothesis T : written_tokens src ts.
Hypothesis T' : written_tokens src' ts'.
Hypothesis X : forall L : lenv, @lg L = g -> @lh L = h -> @lcase L = case -> Forall2 (@xrel L) ts ts' /\ snd (eof_of src') = @lf L (snd (eof_of src)).
Hypothesis Ho : case = true -> o_warn_caps o = false.
Lemma no_panic_a s w : parse_statement_api s [] o = Panics w -> w <> PBadSlice.
Proof. intros H ->. apply C08_statement_panics_partial in H as [[Y _]|[[Y _]|[Y _]]]; discriminate. Qed.
Lemma no_panic_s s w : parse_statements s [] o = Panics w -> w <> PBadSlice.
Proof. intros H ->. apply C08_statements_panics_partial in H as [[Y _]|[[Y _]|[Y _]]]; discriminate. Qed.
Lemma runs_statement : (g 0 = 0 /\ h 0 = 0 /\ case = false) \/ error_free (parse_statement_api src [] o) \/ error_free (parse_statement_api src' [] o) ->
  match parse_statement_api src [] o, parse_statement_api src' [] o with
  | Returns a i, Returns a' i' => a' = respan (move g h) a /\ Forall2 (moved_issue g h) i i'
  | Panics w, Panics w' => w = w'
  | _, _ => False
  end.
Proof.
  intros C. assert (Z : exists strict : bool, (strict = true -> g 0 = 0 /\ h 0 = 0) /\ (case = true -> strict = false) /\ (strict = true \/ error_free (parse_statement_api src [] o) \/ error_free (parse_statement_api src' [] o))).
  { destruct C as [(C1 & C2 & C3)|C]; [exists true; rewrite C3; split; [auto|split; [discriminate|auto] ]|exists false; split; [discriminate|auto] ]. }
  clear C. destruct Z as (strict & Z & Zc & C). set (L := mkLenv g h Mg Mh strict Z case Zc). destruct (X L eq_refl eq_refl eq_refl) as [X1 X2].
  set (m := S (length src + length src')). 
  assert (E1 : parse_statement_n (S m) src src [] o = parse_statement_api src [] o) by (apply C06_budget_independent; unfold m; lia).
  assert (E2 : parse_statement_n (S m) src' src' [] o = parse_statement_api src' [] o) by (apply C06_budget_independent; unfold m; lia).
  assert (F1 : parse_statement_n (S m) src src [] o <> NoFuel) by (apply C06_statement_terminates; unfold m; lia).
  assert (F2 : parse_statement_n (S m) src' src' [] o <> NoFuel).
  { rewrite E2. apply (C06_statement_terminates src' [] o (budget src')). unfold budget. lia. }
  pose proof (no_panic_a src PBadSlice) as B1. pose proof (no_panic_a src' PBadSlice) as B2. rewrite <- E1, <- E2 in *. clear E1 E2.
  destruct (@start_l L src src' ts ts' o T T' X1 X2 Ho) as (st & st' & Q & Q' & Hs & I & I'). unfold parse_statement_n in *. rewrite Q, Q' in *.
  exact (@outcomes L _ _ _ st st' (@body_l L m) Hs I I' C F1 F2 (fun X => B1 X eq_refl) (fun X => B2 X eq_refl)).
Qed.
Lemma runs_statements : (g 0 = 0 /\ h 0 = 0 /\ case = false) \/ error_free (parse_statements src [] o) \/ error_free (parse_statements src' [] o) ->
  parse_statements src [] o <> NoFuel -> parse_statements src' [] o <> NoFuel ->
  match parse_statements src [] o, parse_statements src' [] o with
  | Returns a i, Returns a' i' => a' = respan (move g h) a /\ Forall2 (moved_issue g h) i i'
  | Panics w, Panics w' => w = w'
  | _, _ => False
  end.
Proof.
  intros C F1 F2. assert (Z : exists strict : bool, (strict = true -> g 0 = 0 /\ h 0 = 0) /\ (case = true -> strict = false) /\ (strict = true \/ error_free (parse_statements src [] o) \/ error_free (parse_statements src' [] o))).
  { destruct C as [(C1 & C2 & C3)|C]; [exists true; rewrite C3; split; [auto|split; [discriminate|auto] ]|exists false; split; [discriminate|auto] ]. }
  clear C. destruct Z as (strict & Z & Zc & C). set (L := mkLenv g h Mg Mh strict Z case Zc). destruct (X L eq_refl eq_refl eq_refl) as [X1 X2].
  set (m := S (S (length src + length src'))). 
  assert (E1 : parse_statements_n m src src [] o = parse_statements src [] o) by (apply budget_statements; [unfold budget, m; lia|exact F1]).
  assert (E2 : parse_statements_n m src' src' [] o = parse_statements src' [] o) by (apply budget_statements; [unfold budget, m; lia|exact F2]).
  pose proof (no_panic_s src PBadSlice) as B1. pose proof (no_panic_s src' PBadSlice) as B2. rewrite <- E1, <- E2 in *. clear E1 E2.
  destruct (@start_l L src src' ts ts' o T T' X1 X2 Ho) as (st & st' & Q & Q' & Hs & I & I'). unfold parse_statements_n in *. rewrite Q, Q' in *.
  exact (@outcomes L _ _ _ st st' (@loop_l L m) Hs I I' C F1 F2 (fun X => B1 X eq_refl) (fun X => B2 X eq_refl)).
Qed.
End Runs.
Section Moves.
Variables (g h : nat -> nat) (src src' : text) (ts : list (tok * span)) (o : options).
Hypothesis Mg : monotone g.
Hypothesis Mh : monotone h.
Hypothesis T : written_tokens src ts.
Hypothesis T' : tokens src' = Some (inl (moved g h (ts ++ [eof_of src]))).
Hypothesis N : word_free "STDIN" ts.
Lemma eof_shape r ts0 e : layout 0 r (ts0 ++ [e]) -> e = (TEof, (blen r, blen r)).
Proof. intros H. now apply eof_last_ in H. Qed.
Lemma moved_tokens : written_tokens src' (moved g h ts) /\ snd (eof_of src') = move g h (snd (eof_of src)).
Proof.
  destruct (tokens_layout src') as (x & E & La). rewrite T' in E. injection E as <-. unfold moved in La. rewrite map_app in La. apply eof_shape in La.
  cbn [map] in La. assert (He : eof_of src' = (fst (eof_of src), move g h (snd (eof_of src)))) by (rewrite La; reflexivity).
  split; [|now rewrite He]. unfold written_tokens. rewrite T'. do 2 f_equal. unfold moved. rewrite map_app. f_equal. cbn [map]. now rewrite He.
Qed.
Lemma moved_rel (L : lenv) : @lg L = g -> @lh L = h -> @lcase L = false -> Forall2 (@xrel L) ts (moved g h ts) /\ snd (eof_of src') = @lf L (snd (eof_of src)).
Proof.
  intros Eg Eh C. split; [|unfold lf; rewrite Eg, Eh; apply moved_tokens].
  assert (G : forall us, word_free "STDIN" us -> Forall2 (@xrel L) us (moved g h us)); [|apply G, N]. clear - Eg Eh C.
  intros us Nu. induction Nu as [|[t s] us Nx Nu IH]; cbn [moved map]; constructor; [|exact IH].
  split; [|unfold lf; rewrite Eg, Eh; reflexivity]. apply rel_same. split; [exact Nx|intros X; congruence].
Qed.
Lemma both_statement : (g 0 = 0 /\ h 0 = 0) \/ error_free (parse_statement_api src [] o) \/ error_free (parse_statement_api src' [] o) ->
  match parse_statement_api src [] o, parse_statement_api src' [] o with
  | Returns a i, Returns a' i' => a' = respan (move g h) a /\ Forall2 (moved_issue g h) i i'
  | Panics w, Panics w' => w = w'
  | _, _ => False
  end.
Proof. intros C. eapply runs_statement; [exact Mg|exact Mh|exact T|apply moved_tokens|exact moved_rel|discriminate|]. tauto. Qed.
Lemma both_statements : (g 0 = 0 /\ h 0 = 0) \/ error_free (parse_statements src [] o) \/ error_free (parse_statements src' [] o) ->
  parse_statements src [] o <> NoFuel -> parse_statements src' [] o <> NoFuel ->
  match parse_statements src [] o, parse_statements src' [] o with
  | Returns a i, Returns a' i' => a' = respan (move g h) a /\ Forall2 (moved_issue g h) i i'
  | Panics w, Panics w' => w = w'
  | _, _ => False
  end.
Proof. intros C. eapply runs_statements; [exact Mg|exact Mh|exact T|apply moved_tokens|exact moved_rel|discriminate|]. tauto. Qed.
End Moves.

(** parse_statement: the tokens of [src'] are those of [src], moved by [g] and [h]; then the AST of [src'] is that of [src], moved by [g] and [h], and so are the issues.
    (Without Errors, that is.  With Errors, there may be spans in the AST that are made up and start and end at 0; so 0 must not be moved then.) *)
Theorem C56_statement g h src src' ts o x i :
  monotone g -> monotone h -> written_tokens src ts -> tokens src' = Some (inl (moved g h (ts ++ [eof_of src]))) -> word_free "STDIN" ts ->
  parse_statement_api src [] o = Returns x i -> errors i = [] \/ (g 0 = 0 /\ h 0 = 0) ->
  exists i', parse_statement_api src' [] o = Returns (respan (move g h) x) i' /\ Forall2 (moved_issue g h) i i'.
Proof.
  intros Mg Mh T T' N E C. pose proof (both_statement g h src src' ts o Mg Mh T T' N) as B. rewrite E in B.
  destruct (parse_statement_api src' [] o) as [x' i'|w|] eqn:E'; [|destruct B; destruct C; auto..].
  destruct B as [-> B]; [destruct C; auto|]. eauto.
Qed.
(** The other way round. *)
Theorem C56_statement_back g h src src' ts o x' i' :
  monotone g -> monotone h -> written_tokens src ts -> tokens src' = Some (inl (moved g h (ts ++ [eof_of src]))) -> word_free "STDIN" ts ->
  parse_statement_api src' [] o = Returns x' i' -> errors i' = [] \/ (g 0 = 0 /\ h 0 = 0) ->
  exists x i, parse_statement_api src [] o = Returns x i /\ x' = respan (move g h) x /\ Forall2 (moved_issue g h) i i'.
Proof.
  intros Mg Mh T T' N E C. pose proof (both_statement g h src src' ts o Mg Mh T T' N) as B. rewrite E in B.
  destruct (parse_statement_api src [] o) as [x i|w|] eqn:E'; [|destruct B; destruct C; auto..].
  destruct B as [-> B]; [destruct C; auto|]. eauto.
Qed.
(** parse_statements.  (It may not terminate on scripts that end with DELIMITER, see C07.) *)
Theorem C56_statements g h src src' ts o l i :
  monotone g -> monotone h -> written_tokens src ts -> tokens src' = Some (inl (moved g h (ts ++ [eof_of src]))) -> word_free "STDIN" ts ->
  parse_statements src [] o = Returns l i -> parse_statements src' [] o <> NoFuel -> errors i = [] \/ (g 0 = 0 /\ h 0 = 0) ->
  exists i', parse_statements src' [] o = Returns (respan (move g h) l) i' /\ Forall2 (moved_issue g h) i i'.
Proof.
  intros Mg Mh T T' N E F C. pose proof (both_statements g h src src' ts o Mg Mh T T' N) as B. rewrite E in B.
  destruct (parse_statements src' [] o) as [x' i'|w|] eqn:E'; [| |congruence].
  - destruct B as [-> B]; [destruct C; auto|discriminate..|]. eauto.
  - destruct B; [destruct C; auto|discriminate..].
Qed.
Theorem C56_statements_back g h src src' ts o l' i' :
  monotone g -> monotone h -> written_tokens src ts -> tokens src' = Some (inl (moved g h (ts ++ [eof_of src]))) -> word_free "STDIN" ts ->
  parse_statements src' [] o = Returns l' i' -> parse_statements src [] o <> NoFuel -> errors i' = [] \/ (g 0 = 0 /\ h 0 = 0) ->
  exists l i, parse_statements src [] o = Returns l i /\ l' = respan (move g h) l /\ Forall2 (moved_issue g h) i i'.
Proof.
  intros Mg Mh T T' N E F C. pose proof (both_statements g h src src' ts o Mg Mh T T' N) as B. rewrite E in B.
  destruct (parse_statements src [] o) as [x i|w|] eqn:E'; [| |congruence].
  - destruct B as [-> B]; [destruct C; auto|discriminate..|]. eauto.
  - destruct B; [destruct C; auto|discriminate..].
Qed.

(** ** Sources with the same tokens *)
(** There are such maps if the tokens are the same: unless nothing follows the last token in [src] and something follows it in [src']. *)
Definition starts_of (ts : list (tok * span)) : list nat := map (fun x => fst (snd x)) ts.
Definition ends_of (ts : list (tok * span)) : list nat := map (fun x => snd (snd x)) ts.
Lemma layout_one p r e : layout p r [e] -> exists k, e = (TEof, (p + k, p + k)) /\ p + k = p + blen r.
Proof. intros H. inversion H; subst; [exists (blen r); auto|]. match goal with K : layout _ _ [] |- _ => inversion K end. Qed.
Lemma layout_cons p r x us : us <> [] -> layout p r (x :: us) -> exists r', p <= fst (snd x) /\ fst (snd x) < snd (snd x) /\ layout (snd (snd x)) r' us /\ snd (snd x) + blen r' = p + blen r.
Proof.
  intros Nu H. inversion H as [p0 g'|p0 g' w r' t ts Tg Wn Tt Te En L]; subst; [contradiction|]. exists r'. cbn [fst snd].
  assert (blen w > 0) by (destruct w as [|c w]; [easy|]; cbn; pose proof (utf8_len_pos c); lia). split; [lia|]. split; [lia|]. split; [exact L|]. rewrite !blen_app. lia.
Qed.
Lemma starts_sorted us : forall us' p r p' r', layout p r us -> layout p' r' us' -> length us = length us' ->
  StronglySorted before_ (combine (starts_of us) (starts_of us')) /\ Forall (fun z => p <= fst z /\ p' <= snd z) (combine (starts_of us) (starts_of us')).
Proof.
  induction us as [|x us IH]; intros [|x' us'] p r p' r' H H' Ln; try discriminate; [inversion H|]. injection Ln as Ln. cbn [starts_of map combine]. destruct us as [|y us].
  - destruct us' as [|]; [|discriminate]. apply layout_one in H as (k & -> & _). apply layout_one in H' as (k' & -> & _). cbn. split; [repeat constructor|]. constructor; [cbn; lia|constructor].
  - destruct us' as [|y' us']; [discriminate|]. apply layout_cons in H as (r1 & A1 & A2 & H & _); [|discriminate]. apply layout_cons in H' as (r1' & A1' & A2' & H' & _); [|discriminate].
    destruct (IH _ _ _ _ _ H H' Ln) as [S F]. unfold span in *. split.
    + constructor; [exact S|]. eapply Forall_impl; [|exact F]. intros z [Z1 Z2]. left. cbn [fst snd]. lia.
    + constructor; [cbn [fst snd]; lia|]. eapply Forall_impl; [|exact F]. intros z [Z1 Z2]. lia.
Qed.
Lemma before_trans x y z : before_ x y -> before_ y z -> before_ x z.
Proof. intros [[A B]| ->] [[C D]| <-]; [left|left|left|right]; auto; lia. Qed.
Lemma ends_sorted us : forall us' e e' p r p' r', layout p r (us ++ [e]) -> layout p' r' (us' ++ [e']) -> length us = length us' ->
  (end_of p us = snd (snd e) -> end_of p' us' = snd (snd e')) ->
  StronglySorted before_ (combine (ends_of (us ++ [e])) (ends_of (us' ++ [e']))) /\ Forall (before_ (p, p')) (combine (ends_of (us ++ [e])) (ends_of (us' ++ [e']))).
Proof.
  induction us as [|x us IH]; intros [|x' us'] e e' p r p' r' H H' Ln C; try discriminate.
  - cbn [app] in *. apply layout_one in H as (k & -> & _). apply layout_one in H' as (k' & -> & _). cbn [ends_of map combine fst snd]. cbn [end_of fold_left fst snd] in C. split; [repeat constructor|]. constructor; [|constructor].
    destruct (Nat.eq_dec k 0) as [->|Nk]; [right; f_equal; lia|left]. cbn [fst snd]. lia.
  - injection Ln as Ln. cbn [app] in *. apply layout_cons in H as (r1 & A1 & A2 & H & _); [|destruct us; discriminate]. apply layout_cons in H' as (r1' & A1' & A2' & H' & _); [|destruct us'; discriminate].
    destruct (IH _ _ _ _ _ _ _ H H' Ln C) as [S F]. cbn [ends_of map combine]. unfold span in *. split; [constructor; [exact S|exact F]|].
    assert (B : before_ (p, p') (snd (snd x), snd (snd x'))) by (left; cbn [fst snd]; lia). constructor; [exact B|]. eapply Forall_impl; [|exact F]. intros z Z. eapply before_trans; eauto.
Qed.
Lemma written_layout src ts : written_tokens src ts -> layout 0 src (ts ++ [eof_of src]).
Proof. intros T. destruct (tokens_layout src) as (o' & E & L). unfold written_tokens in T. rewrite T in E. now injection E as <-. Qed.
Lemma lastle_monotone zs : StronglySorted before_ zs -> monotone (fun p => lastle zs p 0).
Proof. intros S a b H. apply lastle_mono; [exact H| |exact S]. apply Forall_forall. intros x _. lia. Qed.
Lemma moved_at g h us : forall us', length us = length us' -> (forall a b, In (a, b) (combine (starts_of us) (starts_of us')) -> g a = b) ->
  (forall a b, In (a, b) (combine (ends_of us) (ends_of us')) -> h a = b) -> Forall2 (fun x x' => snd x' = move g h (snd x)) us us'.
Proof.
  induction us as [|[t s] us IH]; intros [|[t' s'] us'] E G H; try discriminate; constructor.
  - destruct s as [a b], s' as [a' b']. unfold move. cbn [fst snd]. rewrite (G a a'), (H b b'); [reflexivity|now left..].
  - injection E as E. apply IH; [exact E| |]; intros a b I; [apply G|apply H]; now right.
Qed.
(** Only the number of the tokens matters. *)
Theorem C56_positions src src' ts ts' :
  written_tokens src ts -> written_tokens src' ts' -> length ts = length ts' -> (end_of 0 ts = blen src -> end_of 0 ts' = blen src') ->
  exists g h, monotone g /\ monotone h /\ Forall2 (fun x x' => snd x' = move g h (snd x)) (ts ++ [eof_of src]) (ts' ++ [eof_of src']) /\
    ((first_at (ts ++ [eof_of src]) = 0 -> first_at (ts' ++ [eof_of src']) = 0) -> g 0 = 0 /\ h 0 = 0).
Proof.
  intros T T' Ln C. pose proof (written_layout _ _ T) as L. pose proof (written_layout _ _ T') as L'.
  assert (Ln2 : length (ts ++ [eof_of src]) = length (ts' ++ [eof_of src'])) by (rewrite !app_length; cbn; lia).
  destruct (starts_sorted _ _ _ _ _ _ L L' Ln2) as [S F]. destruct (ends_sorted _ _ _ _ _ _ _ _ L L' Ln C) as [S2 F2].
  exists (fun p => lastle (combine (starts_of (ts ++ [eof_of src])) (starts_of (ts' ++ [eof_of src']))) p 0), (fun p => lastle (combine (ends_of (ts ++ [eof_of src])) (ends_of (ts' ++ [eof_of src']))) p 0).
  split; [now apply lastle_monotone|]. split; [now apply lastle_monotone|]. split.
  - apply moved_at; [exact Ln2| |]; intros a b I; now apply lastle_in.
  - intros Z. split.
    + destruct ts as [|x ts], ts' as [|x' ts']; try discriminate; cbn [app starts_of map combine first_at] in *.
      * cbn [lastle eof_of fst snd] in *. destruct (Nat.leb_spec (blen src) 0); [|reflexivity]. apply Z. lia.
      * destruct (Nat.leb_spec (fst (snd x)) 0) as [Q|Q]; [|cbn [lastle starts_of app map combine]; unfold span in *; rewrite (proj2 (Nat.leb_gt _ _) Q); reflexivity].
        assert (Q0 : fst (snd x) = 0) by (unfold span in *; lia). pose proof (lastle_in _ (fst (snd x)) (fst (snd x')) (in_eq _ _) S 0) as X. cbn beta in X. unfold span in *. rewrite Q0, (Z Q0) in X. rewrite Q0, (Z Q0). exact X.
    + destruct ts as [|x ts], ts' as [|x' ts']; try discriminate; cbn [app ends_of map combine first_at] in *.
      * cbn [lastle eof_of fst snd] in *. destruct (Nat.leb_spec (blen src) 0); [|reflexivity]. apply Z. lia.
      * apply layout_cons in L as (r & A1 & A2 & _); [|destruct ts; discriminate]. cbn [lastle starts_of ends_of app map combine]. unfold span in *. rewrite (proj2 (Nat.leb_gt (snd (snd x)) 0)) by lia. reflexivity.
Qed.
Theorem C56_layouts src src' ts ts' :
  written_tokens src ts -> written_tokens src' ts' -> map fst ts' = map fst ts -> (end_of 0 ts = blen src -> end_of 0 ts' = blen src') ->
  exists g h, monotone g /\ monotone h /\ tokens src' = Some (inl (moved g h (ts ++ [eof_of src]))) /\
    ((first_at (ts ++ [eof_of src]) = 0 -> first_at (ts' ++ [eof_of src']) = 0) -> g 0 = 0 /\ h 0 = 0).
Proof.
  intros T T' E C. assert (Ln : length ts = length ts') by (rewrite <- (map_length fst ts), <- E; apply map_length).
  destruct (C56_positions _ _ _ _ T T' Ln C) as (g & h & Mg & Mh & M & Z). exists g, h. split; [exact Mg|]. split; [exact Mh|]. split; [|exact Z].
  unfold written_tokens in T'. rewrite T'. do 2 f_equal. assert (E2 : map fst (ts' ++ [eof_of src']) = map fst (ts ++ [eof_of src])) by (rewrite !map_app, E; reflexivity).
  revert E2. clear - M. induction M as [|[t s] [t' s'] us us' H M IH]; intros E2; [reflexivity|]. cbn [map fst snd moved] in *. injection E2 as -> E2. rewrite H, (IH E2). reflexivity.
Qed.

(** So sources with the same tokens have the same AST, moved. *)
Corollary C56_same_tokens src src' ts ts' o x i :
  written_tokens src ts -> written_tokens src' ts' -> map fst ts' = map fst ts -> (end_of 0 ts = blen src -> end_of 0 ts' = blen src') -> word_free "STDIN" ts ->
  parse_statement_api src [] o = Returns x i -> errors i = [] \/ (first_at (ts ++ [eof_of src]) = 0 -> first_at (ts' ++ [eof_of src']) = 0) ->
  exists g h i', monotone g /\ monotone h /\ tokens src' = Some (inl (moved g h (ts ++ [eof_of src]))) /\
    parse_statement_api src' [] o = Returns (respan (move g h) x) i' /\ Forall2 (moved_issue g h) i i'.
Proof.
  intros T T' E C N P Z. destruct (C56_layouts _ _ _ _ T T' E C) as (g & h & Mg & Mh & M & Z0). exists g, h.
  destruct (C56_statement g h src src' ts o x i Mg Mh T M N P) as (i' & P' & F); [destruct Z; auto|]. eauto 8.
Qed.
Corollary C56_same_tokens_script src src' ts ts' o l i :
  written_tokens src ts -> written_tokens src' ts' -> map fst ts' = map fst ts -> (end_of 0 ts = blen src -> end_of 0 ts' = blen src') -> word_free "STDIN" ts ->
  parse_statements src [] o = Returns l i -> parse_statements src' [] o <> NoFuel -> errors i = [] \/ (first_at (ts ++ [eof_of src]) = 0 -> first_at (ts' ++ [eof_of src']) = 0) ->
  exists g h i', monotone g /\ monotone h /\ tokens src' = Some (inl (moved g h (ts ++ [eof_of src]))) /\
    parse_statements src' [] o = Returns (respan (move g h) l) i' /\ Forall2 (moved_issue g h) i i'.
Proof.
  intros T T' E C N P F Z. destruct (C56_layouts _ _ _ _ T T' E C) as (g & h & Mg & Mh & M & Z0). exists g, h.
  destruct (C56_statements g h src src' ts o l i Mg Mh T M N P F) as (i' & P' & Fi); [destruct Z; auto|]. eauto 8.
Qed.

(** ** Insertions *)
(** White space and comments [x] are inserted behind [k] characters: what is behind the place is moved by their length. *)
Definition later (k n : nat) (p : nat) : nat := if Nat.ltb p k then p else p + n.
Definition later_end (k n : nat) (p : nat) : nat := if Nat.leb p k then p else p + n.
Lemma later_monotone k n : monotone (later k n).
Proof. intros a b H. unfold later. destruct (Nat.ltb_spec a k), (Nat.ltb_spec b k); lia. Qed.
Lemma later_end_monotone k n : monotone (later_end k n).
Proof. intros a b H. unfold later_end. destruct (Nat.leb_spec a k), (Nat.leb_spec b k); lia. Qed.
Lemma layout_parts ts1 : forall p r ts2, ts2 <> [] -> layout p r (ts1 ++ ts2) ->
  Forall (fun x => fst (snd x) < end_of p ts1 /\ snd (snd x) <= end_of p ts1) ts1 /\ p <= end_of p ts1 /\ exists r', layout (end_of p ts1) r' ts2 /\ end_of p ts1 + blen r' = p + blen r.
Proof.
  induction ts1 as [|x ts1 IH]; intros p r ts2 N H; cbn [app] in H.
  - split; [constructor|]. split; [reflexivity|]. now exists r.
  - apply layout_cons in H as (r1 & A1 & A2 & H & Q0); [|destruct ts1; [exact N|discriminate]]. destruct (IH _ _ _ N H) as (F & Le & r' & H' & Q). change (end_of p (x :: ts1)) with (end_of (snd (snd x)) ts1). unfold span in *.
    split; [constructor; [lia|exact F]|]. split; [lia|]. exists r'. split; [exact H'|lia].
Qed.
Lemma layout_ge us : forall p r, layout p r us -> us <> [] -> Forall (fun x => p <= fst (snd x) /\ (p < snd (snd x) \/ snd (snd x) = p + blen r)) us.
Proof.
  induction us as [|x us IH]; intros p r H N; [contradiction|]. destruct us as [|y us].
  - apply layout_one in H as (k & -> & K). constructor; [cbn [fst snd]; lia|constructor].
  - apply layout_cons in H as (r1 & A1 & A2 & H & Q); [|discriminate]. specialize (IH _ _ H ltac:(discriminate)). unfold span in *. constructor; [lia|]. eapply Forall_impl; [|exact IH]. cbn beta. lia.
Qed.
Lemma eof_last src us : tokens src = Some (inl us) -> exists ts, us = ts ++ [eof_of src] /\ written_tokens src ts.
Proof.
  intros T. destruct (tokens_layout src) as (o' & E & L). rewrite T in E. injection E as <-.
  assert (G : forall us p r, layout p r us -> exists ts, us = ts ++ [(TEof, (p + blen r, p + blen r))]).
  { clear. induction us as [|x us IH]; intros p r H; [inversion H|]. destruct us as [|y us].
    - apply layout_one in H as (k & -> & ->). now exists [].
    - apply layout_cons in H as (r1 & A1 & A2 & H & Q); [|discriminate]. destruct (IH _ _ H) as (ts & ->). exists (x :: ts). cbn [app]. unfold span in *. now rewrite Q. }
  destruct (G _ _ _ L) as (ts & ->). exists ts. split; [reflexivity|exact T].
Qed.
Section Insert.
Variables (u0 a x v : text) (ts1 ts2 : list (tok * span)) (o : options).
Hypothesis T : tokens (u0 ++ a ++ v) = Some (inl (ts1 ++ ts2)).
Hypothesis N2 : ts2 <> [].
Hypothesis He : end_of 0 ts1 = blen u0.
Hypothesis Ta : trivia a.
Hypothesis Tx : trivia x.
Hypothesis Ni : forall t s, In (t, s) ts1 -> t <> TInvalid.
Hypothesis Gl : forall t s, In (t, s) ts1 -> snd s = blen u0 + blen a -> ~ (t = TMinus /\ starts (chars "-") x) /\ ~ (t = TDiv /\ starts (chars "/") x).
Hypothesis Nv : a ++ v <> [].
Notation g := (later (blen u0) (blen x)).
Notation h := (later_end (blen u0) (blen x)).
Lemma inserted : tokens (u0 ++ a ++ x ++ v) = Some (inl (moved g h (ts1 ++ ts2))).
Proof.
  rewrite (tokens_insert u0 a x v ts1 ts2 T N2 He Ta Tx Ni Gl). do 2 f_equal. unfold moved. rewrite map_app.
  destruct (tokens_layout (u0 ++ a ++ v)) as (o' & E & L). rewrite T in E. injection E as <-. destruct (layout_parts _ _ _ _ N2 L) as (F1 & _ & r' & L2 & Q).
  assert (F2 : Forall (fun y => blen u0 <= fst (snd y) /\ blen u0 < snd (snd y)) ts2).
  { pose proof (layout_ge _ _ _ L2 N2) as F2. rewrite He in F2. cbn [Nat.add] in Q. rewrite He, !blen_app in Q.
    assert (P : blen (a ++ v) > 0) by (destruct (a ++ v) as [|c w]; [easy|]; cbn; pose proof (utf8_len_pos c); lia). rewrite blen_app in P.
    eapply Forall_impl; [|exact F2]. cbn beta. unfold span in *. lia. }
  rewrite He in F1. f_equal.
  - rewrite <- (map_id ts1) at 1. apply map_ext_Forall. eapply Forall_impl; [|exact F1]. intros [t [s e]] [H1 H2]. cbn [fst snd] in *. unfold move, later, later_end. cbn [fst snd].
    rewrite (proj2 (Nat.ltb_lt _ _) H1), (proj2 (Nat.leb_le _ _) H2). reflexivity.
  - apply map_ext_Forall. eapply Forall_impl; [|exact F2]. intros [t [s e]] [H1 H2]. cbn [fst snd] in *. unfold move, LexStream.shift, later, later_end. cbn [fst snd].
    rewrite (proj2 (Nat.ltb_ge _ _) H1), (proj2 (Nat.leb_gt _ _) H2). reflexivity.
Qed.
Lemma still : u0 <> [] -> g 0 = 0 /\ h 0 = 0.
Proof. intros N. assert (P : 0 < blen u0) by (destruct u0 as [|c w]; [easy|]; cbn; pose proof (utf8_len_pos c); lia). unfold later, later_end. rewrite (proj2 (Nat.ltb_lt _ _) P). auto. Qed.
(** What is inserted behind the tokens [ts1] only moves what comes behind them.  (For what is inserted at the very end see below; if it is inserted in front of everything there must be no Errors.) *)
Theorem C56_insert_statement s i : word_free "STDIN" (ts1 ++ ts2) -> parse_statement_api (u0 ++ a ++ v) [] o = Returns s i -> errors i = [] \/ u0 <> [] ->
  exists i', parse_statement_api (u0 ++ a ++ x ++ v) [] o = Returns (respan (move g h) s) i' /\ Forall2 (moved_issue g h) i i'.
Proof.
  intros N P C. destruct (eof_last _ _ T) as (ts & E & W). pose proof inserted as T'. rewrite E in T', N. apply Forall_app in N as [N _].
  eapply (C56_statement g h _ _ ts); eauto using later_monotone, later_end_monotone. destruct C as [C|C]; [now left|right; now apply still].
Qed.
Theorem C56_insert_statements l i : word_free "STDIN" (ts1 ++ ts2) -> parse_statements (u0 ++ a ++ v) [] o = Returns l i -> parse_statements (u0 ++ a ++ x ++ v) [] o <> NoFuel -> errors i = [] \/ u0 <> [] ->
  exists i', parse_statements (u0 ++ a ++ x ++ v) [] o = Returns (respan (move g h) l) i' /\ Forall2 (moved_issue g h) i i'.
Proof.
  intros N P F C. destruct (eof_last _ _ T) as (ts & E & W). pose proof inserted as T'. rewrite E in T', N. apply Forall_app in N as [N _].
  eapply (C56_statements g h _ _ ts); eauto using later_monotone, later_end_monotone. destruct C as [C|C]; [now left|right; now apply still].
Qed.
End Insert.
(** The same tree, without a condition on the ends: the two ASTs are one tree [t] at two places. *)
Definition same_reports (i i' : list issue) : Prop := map (fun x => (i_level x, i_message x)) i' = map (fun x => (i_level x, i_message x)) i.
Lemma moved_reports g h i i' : Forall2 (moved_issue g h) i i' -> same_reports i i'.
Proof. intros F. unfold same_reports. induction F as [|x y l l' (A & B & _) F IH]; cbn [map]; [reflexivity|]. now rewrite A, B, IH. Qed.
Lemma end_prefix src ts : written_tokens src ts -> exists u v, src = u ++ v /\ end_of 0 ts = blen u.
Proof.
  intros T. pose proof (written_layout _ _ T) as L. enough (X : forall ts p r e, layout p r (ts ++ [e]) -> exists u v, r = u ++ v /\ end_of p ts = p + blen u) by exact (X _ _ _ _ L).
  clear. induction ts as [|x ts IH]; intros p r e H; cbn [app] in H.
  - exists [], r. cbn. split; [reflexivity|lia].
  - inversion H as [p0 g' Z|p0 g' w r' t ts0 Tg Wn Tt Te En L]; subst; [destruct ts; discriminate|]. destruct (IH _ _ _ L) as (u & v & -> & E). exists (g' ++ w ++ u), v. split; [now rewrite <- !app_assoc|].
    change (end_of p ((t, (p + blen g', p + blen g' + blen w)) :: ts)) with (end_of (p + blen g' + blen w) ts). rewrite E, !blen_app. lia.
Qed.
(** Every source has another one with the same tokens and a gap at the end. *)
Lemma with_gap src ts : written_tokens src ts -> Forall (fun x => fst x <> TInvalid) ts -> exists c, written_tokens c ts /\ end_of 0 ts < blen c.
Proof.
  intros T N. destruct (end_prefix _ _ T) as (u & v & -> & E). exists (u ++ txt " " ++ v). 
  assert (X : tokens (u ++ [] ++ txt " " ++ v) = Some (inl (ts ++ map (fun y => (fst y, LexStream.shift (blen (txt " ")) (snd y))) [eof_of (u ++ v)]))).
  { apply tokens_insert; [exact T|discriminate|exact E|constructor|repeat constructor| |].
    - intros t s I. rewrite Forall_forall in N. exact (N _ I).
    - intros t s I _. split; intros [_ H]; vm_compute in H; intuition discriminate. }
  cbn [app] in X. destruct (eof_last _ _ X) as (ts' & E' & W). cbn [map] in E'. apply app_inj_tail in E' as [<- _]. split; [exact W|]. rewrite E, !blen_app. cbn. lia.
Qed.
Theorem C56_statement_same_tree src src' ts ts' o x i :
  written_tokens src ts -> written_tokens src' ts' -> map fst ts' = map fst ts -> word_free "STDIN" ts -> Forall (fun x => fst x <> TInvalid) ts ->
  parse_statement_api src [] o = Returns x i -> errors i = [] ->
  exists x' i' t g h g' h', parse_statement_api src' [] o = Returns x' i' /\ monotone g /\ monotone h /\ monotone g' /\ monotone h' /\
    x = respan (move g h) t /\ x' = respan (move g' h') t /\ same_reports i i'.
Proof.
  intros T T' E N V P Z. destruct (with_gap _ _ T V) as (c & Tc & Lc).
  destruct (C56_layouts c src ts ts Tc T eq_refl ltac:(lia)) as (g & h & Mg & Mh & M & _). destruct (C56_layouts c src' ts ts' Tc T' E ltac:(lia)) as (g' & h' & Mg' & Mh' & M' & _).
  destruct (C56_statement_back g h c src ts o x i Mg Mh Tc M N P (or_introl Z)) as (t & j & Pc & -> & Fj).
  assert (Zj : errors j = []).
  { assert (R : length (errors j) = length (errors i)); [|destruct (errors j); [reflexivity|rewrite Z in R; discriminate]]. clear - Fj. unfold errors.
    induction Fj as [|a b l l' (A & _) F IH]; [reflexivity|]. cbn [filter]. assert (is_error b = is_error a) as -> by (unfold is_error; now rewrite A). destruct (is_error a); cbn [length]; auto. }
  destruct (C56_statement g' h' c src' ts o t j Mg' Mh' Tc M' N Pc (or_introl Zj)) as (i' & P' & Fi).
  exists (respan (move g' h') t), i', t, g, h, g', h'. repeat (split; [assumption || reflexivity|]). apply moved_reports in Fj. apply moved_reports in Fi. unfold same_reports in *. congruence.
Qed.
Theorem C56_statements_same_tree src src' ts ts' o l i :
  written_tokens src ts -> written_tokens src' ts' -> map fst ts' = map fst ts -> word_free "STDIN" ts -> Forall (fun x => fst x <> TInvalid) ts ->
  parse_statements src [] o = Returns l i -> errors i = [] -> (forall src0 ts0, written_tokens src0 ts0 -> map fst ts0 = map fst ts -> parse_statements src0 [] o <> NoFuel) ->
  exists l' i' t g h g' h', parse_statements src' [] o = Returns l' i' /\ monotone g /\ monotone h /\ monotone g' /\ monotone h' /\
    l = respan (move g h) t /\ l' = respan (move g' h') t /\ same_reports i i'.
Proof.
  intros T T' E N V P Z Nf. destruct (with_gap _ _ T V) as (c & Tc & Lc).
  destruct (C56_layouts c src ts ts Tc T eq_refl ltac:(lia)) as (g & h & Mg & Mh & M & _). destruct (C56_layouts c src' ts ts' Tc T' E ltac:(lia)) as (g' & h' & Mg' & Mh' & M' & _).
  destruct (C56_statements_back g h c src ts o l i Mg Mh Tc M N P (Nf c ts Tc eq_refl) (or_introl Z)) as (t & j & Pc & -> & Fj).
  assert (Zj : errors j = []).
  { assert (R : length (errors j) = length (errors i)); [|destruct (errors j); [reflexivity|rewrite Z in R; discriminate]]. clear - Fj. unfold errors.
    induction Fj as [|a b l l' (A & _) F IH]; [reflexivity|]. cbn [filter]. assert (is_error b = is_error a) as -> by (unfold is_error; now rewrite A). destruct (is_error a); cbn [length]; auto. }
  destruct (C56_statements g' h' c src' ts o t j Mg' Mh' Tc M' N Pc (Nf src' ts' T' E) (or_introl Zj)) as (i' & P' & Fi).
  exists (respan (move g' h') t), i', t, g, h, g', h'. repeat (split; [assumption || reflexivity|]). apply moved_reports in Fj. apply moved_reports in Fi. unfold same_reports in *. congruence.
Qed.
(** ** Examples *)
Definition tight : text := txt "SELECT a,b FROM t WHERE a+1<2;".
Definition loose : text := txt "  SELECT a, b /* of t */
FROM t  -- there
 WHERE a + 1 < 2
;
".
Definition read (src : text) : list (tok * span) := match tokens src with Some (inl us) => removelast us | _ => [] end.
(** Two layouts of a statement; the theorem and its converse apply. *)
Example C56_layouts_apply :
  written_tokens tight (read tight) /\ written_tokens loose (read loose) /\ map fst (read loose) = map fst (read tight) /\ length (read tight) = 13 /\
  (end_of 0 (read loose) = blen loose -> end_of 0 (read tight) = blen tight) /\ word_free "STDIN" (read loose) /\
  match parse_statements tight [] default_options, parse_statements loose [] default_options with
  | Returns [x] [], Returns [y] [] => x <> y /\ spn x = SSome (0, 29) /\ spn y = SSome (2, 58)
  | _, _ => False end.
Proof.
  split; [vm_compute; reflexivity|]. split; [vm_compute; reflexivity|]. split; [vm_compute; reflexivity|]. split; [vm_compute; reflexivity|]. split; [vm_compute; discriminate|]. split; [vm_compute; repeat constructor|].
  vm_compute. split; [discriminate|auto].
Qed.
(** With Errors: the same issues at the other places. *)
Definition wrong : text := txt "SELECT FROM;".
Definition wrong_loose : text := txt "SELECT
 FROM ;".
Example C56_errors_apply :
  written_tokens wrong (read wrong) /\ written_tokens wrong_loose (read wrong_loose) /\ map fst (read wrong_loose) = map fst (read wrong) /\ first_at (read wrong_loose) = 0 /\
  match parse_statements wrong [] default_options, parse_statements wrong_loose [] default_options with
  | Returns _ (i :: _), Returns _ (j :: _) => i_span i = (7, 11) /\ i_span j = (8, 12) /\ i_message i = i_message j
  | _, _ => False end.
Proof.
  split; [vm_compute; reflexivity|]. split; [vm_compute; reflexivity|]. split; [vm_compute; reflexivity|]. split; [vm_compute; reflexivity|]. vm_compute. auto.
Qed.
(** In front of everything a gap moves the AST, but not the spans that are made up where there is an Error. *)
Example C56_made_up : exists src x y i j s t,
  parse_statement_api src [] default_options = Returns (Some x) i /\ parse_statement_api (txt " " ++ src) [] default_options = Returns (Some y) j /\
  tokens (txt " " ++ src) = Some (inl (moved (fun p => p + 1) (fun p => p + 1) (read src ++ [eof_of src]))) /\
  spn x = SSome s /\ spn y = SSome t /\ errors i <> [] /\ t <> move (fun p => p + 1) (fun p => p + 1) s.
Proof.
  exists (txt "CREATE TABLE t (a INT(x))"). 
  destruct (parse_statement_api (txt "CREATE TABLE t (a INT(x))") [] default_options) as [[x|] i|w|] eqn:E; [|vm_compute in E; discriminate E..].
  destruct (parse_statement_api (txt " " ++ txt "CREATE TABLE t (a INT(x))") [] default_options) as [[y|] j|w|] eqn:E'; [|vm_compute in E'; discriminate E'..].
  exists x, y, i, j, (0, 21), (0, 22). split; [reflexivity|]. split; [reflexivity|]. split; [vm_compute; reflexivity|].
  assert (X : match parse_statement_api (txt "CREATE TABLE t (a INT(x))") [] default_options, parse_statement_api (txt " " ++ txt "CREATE TABLE t (a INT(x))") [] default_options with
    | Returns (Some x) i, Returns (Some y) j => spn x = SSome (0, 21) /\ spn y = SSome (0, 22) /\ length (errors i) > 0 | _, _ => False end) by (vm_compute; auto).
  rewrite E, E' in X. destruct X as (X1 & X2 & X3). split; [exact X1|]. split; [exact X2|]. split; [intros Z; rewrite Z in X3; inversion X3|discriminate].
Qed.
(** An insertion. *)
Example C56_insert_applies :
  let u0 := txt "SELECT a" in let a := txt " " in let x := txt "/* b */ " in let v := txt "FROM t" in
  exists ts1 ts2, tokens (u0 ++ a ++ v) = Some (inl (ts1 ++ ts2)) /\ ts2 <> [] /\ end_of 0 ts1 = blen u0 /\ length ts1 = 2 /\ word_free "STDIN" (ts1 ++ ts2) /\
  match parse_statement_api (u0 ++ a ++ v) [] default_options with Returns (Some _) [] => True | _ => False end.
Proof.
  exists (firstn 2 (read (txt "SELECT a FROM t"))), (skipn 2 (read (txt "SELECT a FROM t")) ++ [eof_of (txt "SELECT a FROM t")]).
  split; [vm_compute; reflexivity|]. split; [vm_compute; discriminate|]. split; [reflexivity|]. split; [reflexivity|]. split; [vm_compute; repeat constructor|exact I].
Qed.
