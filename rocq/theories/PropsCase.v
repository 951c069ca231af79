(** C57: the case of the reserved words does not matter.

    Two sources that differ in their layout and in the spelling of reserved words have the same AST; its spans are at the places to which
    the tokens have been moved.  So SELECT, Select and select are the same to the parser, wherever they are written. *)
From Verif Require Import PropsSafe PropsScript.
From Verif Require Export PropsLayout.
Local Open Scope string_scope.
Local Open Scope list_scope.

(** ** The specification *)
(** The same token, or the same reserved word with other letters.  (Which keyword a word is depends on its capitals only, see C40.) *)
Definition recased (t t' : tok) : Prop :=
  t' = t \/ exists v v' k, t = TIdent v k /\ t' = TIdent v' k /\ kw_reserved k = true.
(** The words of a system variable ([@@global.x]) are part of the AST. *)
Definition no_variables (ts : list (tok * span)) : Prop := Forall (fun x => fst x <> TAtAtGlobal /\ fst x <> TAtAtSession) ts.
Definition caseless (ts : list (tok * span)) : Prop := word_free "STDIN" ts /\ word_free "DELIMITER" ts /\ no_variables ts.
Definition recased_at (g h : nat -> nat) (x x' : tok * span) : Prop := recased (fst x) (fst x') /\ snd x' = move g h (snd x).

Lemma forall2_length A B (R : A -> B -> Prop) l l' : Forall2 R l l' -> length l = length l'.
Proof. intros F. induction F; cbn [length]; auto. Qed.
Lemma no_at t : t <> TAtAtGlobal -> t <> TAtAtSession -> tok_eqb t TAtAtGlobal || tok_eqb t TAtAtSession = false.
Proof. destruct t; try reflexivity; congruence. Qed.
Section Case.
Variables (g h : nat -> nat) (src src' : text) (ts ts' : list (tok * span)) (o : options).
Hypothesis Mg : monotone g.
Hypothesis Mh : monotone h.
Hypothesis T : written_tokens src ts.
Hypothesis T' : written_tokens src' ts'.
Hypothesis R : Forall2 (recased_at g h) (ts ++ [eof_of src]) (ts' ++ [eof_of src']).
Hypothesis N : caseless ts.
Hypothesis Ho : o_warn_caps o = false.
Lemma case_rel (L : lenv) : @lg L = g -> @lh L = h -> @lcase L = true -> Forall2 (@xrel L) ts ts' /\ snd (eof_of src') = @lf L (snd (eof_of src)).
Proof.
  intros Eg Eh C. assert (Ln : length ts = length ts') by (pose proof (forall2_length _ _ _ _ _ R) as Q; rewrite !app_length in Q; cbn in Q; lia).
  assert (R2 : Forall2 (recased_at g h) ts ts' /\ recased_at g h (eof_of src) (eof_of src')).
  { clear - R Ln. revert ts' Ln R. induction ts as [|x us IH]; intros [|x' us'] Ln R; try discriminate; cbn [app] in R; inversion R; subst; [split; [constructor|assumption]|].
    injection Ln as Ln. destruct (IH _ Ln ltac:(assumption)). split; [constructor; assumption|assumption]. }
  destruct R2 as [R1 [_ R3]]. unfold lf. rewrite Eg, Eh. split; [|exact R3]. destruct N as (N1 & N2 & N3). clear - R1 N1 N2 N3 Eg Eh C. revert N1 N2 N3.
  induction R1 as [|[t s] [t' s'] us us' [H1 H2] F IH]; intros N1 N2 N3; constructor; inversion N1; inversion N2; inversion N3; subst; [|auto].
  cbn [fst snd] in *. split; [|exact H2]. cbn [fst]. split.
  - split; [assumption|]. intros _. rewrite no_at by tauto. assumption.
  - destruct H1 as [-> |(v & v' & k & -> & -> & Hk)]; [destruct t; cbn; eauto|]. cbn. exists v'. auto.
Qed.
End Case.

(** parse_statement, without the lint for capitals and on a source without Errors. *)
Theorem C57_statement g h src src' ts ts' o x i :
  monotone g -> monotone h -> written_tokens src ts -> written_tokens src' ts' -> Forall2 (recased_at g h) (ts ++ [eof_of src]) (ts' ++ [eof_of src']) ->
  caseless ts -> o_warn_caps o = false -> parse_statement_api src [] o = Returns x i -> errors i = [] ->
  exists i', parse_statement_api src' [] o = Returns (respan (move g h) x) i' /\ Forall2 (moved_issue g h) i i'.
Proof.
  intros Mg Mh T T' R N Ho E C.
  pose proof (runs_statement g h src src' ts ts' o true Mg Mh T T' (case_rel g h src src' ts ts' R N) (fun _ => Ho)) as B. rewrite E in B.
  destruct (parse_statement_api src' [] o) as [x' i'|w|] eqn:E'; [|destruct B; right; left; exact C..].
  destruct B as [-> B]; [right; left; exact C|]. eauto.
Qed.
(** parse_statements.  (It may not terminate on scripts that end with DELIMITER, see C07.) *)
Theorem C57_statements g h src src' ts ts' o l i :
  monotone g -> monotone h -> written_tokens src ts -> written_tokens src' ts' -> Forall2 (recased_at g h) (ts ++ [eof_of src]) (ts' ++ [eof_of src']) ->
  caseless ts -> o_warn_caps o = false -> parse_statements src [] o = Returns l i -> parse_statements src' [] o <> NoFuel -> errors i = [] ->
  exists i', parse_statements src' [] o = Returns (respan (move g h) l) i' /\ Forall2 (moved_issue g h) i i'.
Proof.
  intros Mg Mh T T' R N Ho E F C.
  pose proof (runs_statements g h src src' ts ts' o true Mg Mh T T' (case_rel g h src src' ts ts' R N) (fun _ => Ho)) as B. rewrite E in B.
  destruct (parse_statements src' [] o) as [x' i'|w|] eqn:E'; [| |congruence].
  - destruct B as [-> B]; [right; left; exact C|discriminate..|]. eauto.
  - destruct B; [right; left; exact C|discriminate..].
Qed.

(** ** Sources with the same tokens up to the case of the reserved words, whatever their layout *)
Lemma recased_layouts src src' ts ts' :
  written_tokens src ts -> written_tokens src' ts' -> Forall2 recased (map fst ts) (map fst ts') -> (end_of 0 ts = blen src -> end_of 0 ts' = blen src') ->
  exists g h, monotone g /\ monotone h /\ Forall2 (recased_at g h) (ts ++ [eof_of src]) (ts' ++ [eof_of src']).
Proof.
  intros T T' E C. assert (Ln : length ts = length ts') by (apply forall2_length in E; now rewrite !map_length in E).
  destruct (C56_positions _ _ _ _ T T' Ln C) as (g & h & Mg & Mh & M & _). exists g, h. split; [exact Mg|]. split; [exact Mh|].
  assert (E2 : Forall2 recased (map fst (ts ++ [eof_of src])) (map fst (ts' ++ [eof_of src']))) by (rewrite !map_app; apply Forall2_app; [exact E|]; constructor; [now left|constructor]).
  revert E2. clear - M. induction M as [|x x' us us' H M IH]; intros E2; constructor; cbn [map] in E2; inversion E2; subst; [split; assumption|auto].
Qed.
Corollary C57_same_tokens src src' ts ts' o x i :
  written_tokens src ts -> written_tokens src' ts' -> Forall2 recased (map fst ts) (map fst ts') -> (end_of 0 ts = blen src -> end_of 0 ts' = blen src') ->
  caseless ts -> o_warn_caps o = false -> parse_statement_api src [] o = Returns x i -> errors i = [] ->
  exists g h i', monotone g /\ monotone h /\ Forall2 (recased_at g h) (ts ++ [eof_of src]) (ts' ++ [eof_of src']) /\
    parse_statement_api src' [] o = Returns (respan (move g h) x) i' /\ Forall2 (moved_issue g h) i i'.
Proof.
  intros T T' E C N Ho P Z. destruct (recased_layouts _ _ _ _ T T' E C) as (g & h & Mg & Mh & M). exists g, h.
  destruct (C57_statement g h src src' ts ts' o x i Mg Mh T T' M N Ho P Z) as (i' & P' & F). eauto 8.
Qed.
Corollary C57_same_tokens_script src src' ts ts' o l i :
  written_tokens src ts -> written_tokens src' ts' -> Forall2 recased (map fst ts) (map fst ts') -> (end_of 0 ts = blen src -> end_of 0 ts' = blen src') ->
  caseless ts -> o_warn_caps o = false -> parse_statements src [] o = Returns l i -> parse_statements src' [] o <> NoFuel -> errors i = [] ->
  exists g h i', monotone g /\ monotone h /\ Forall2 (recased_at g h) (ts ++ [eof_of src]) (ts' ++ [eof_of src']) /\
    parse_statements src' [] o = Returns (respan (move g h) l) i' /\ Forall2 (moved_issue g h) i i'.
Proof.
  intros T T' E C N Ho P F Z. destruct (recased_layouts _ _ _ _ T T' E C) as (g & h & Mg & Mh & M). exists g, h.
  destruct (C57_statements g h src src' ts ts' o l i Mg Mh T T' M N Ho P F Z) as (i' & P' & Fi). eauto 8.
Qed.

(** ** In place: if the tokens are where they were, the AST is the very same. *)
Definition recased_in_place (ts ts' : list (tok * span)) : Prop := Forall2 (fun x x' => recased (fst x) (fst x') /\ snd x' = snd x) ts ts'.
Definition same_issue_elsewhere (a b : issue) : Prop := i_level b = i_level a /\ i_message b = i_message a /\ i_span b = i_span a.
Lemma move_id s : move (fun p => p) (fun p => p) s = s.
Proof. now destruct s. Qed.
Lemma id_monotone : monotone (fun p => p).
Proof. intros a b H. exact H. Qed.
Lemma moved_id us : moved (fun p => p) (fun p => p) us = us.
Proof. unfold moved. rewrite <- (map_id us) at 2. apply map_ext. intros [t s]. cbn [fst snd]. now rewrite move_id. Qed.
Lemma issues_id i i' : Forall2 (moved_issue (fun p => p) (fun p => p)) i i' -> Forall2 same_issue_elsewhere i i'.
Proof. intros F. induction F as [|a b l l' (A & B & C & _) F IH]; constructor; [|exact IH]. rewrite move_id in C. split; [exact A|]. split; assumption. Qed.
Lemma in_place src src' ts ts' : recased_in_place ts ts' -> blen src' = blen src -> Forall2 (recased_at (fun p => p) (fun p => p)) (ts ++ [eof_of src]) (ts' ++ [eof_of src']).
Proof.
  intros R B. apply Forall2_app.
  - induction R as [|x x' l l' [A E] R IH]; constructor; [|exact IH]. split; [exact A|]. now rewrite move_id.
  - constructor; [|constructor]. unfold eof_of. rewrite B. split; [now left|]. cbn [snd]. now rewrite move_id.
Qed.
Theorem C57_statement_in_place src src' ts ts' o x i :
  written_tokens src ts -> written_tokens src' ts' -> recased_in_place ts ts' -> blen src' = blen src ->
  caseless ts -> o_warn_caps o = false -> parse_statement_api src [] o = Returns x i -> errors i = [] ->
  exists i', parse_statement_api src' [] o = Returns x i' /\ Forall2 same_issue_elsewhere i i'.
Proof.
  intros T T' R B N Ho P Z. destruct (C57_statement _ _ src src' ts ts' o x i id_monotone id_monotone T T' (in_place _ _ _ _ R B) N Ho P Z) as (i' & P' & F).
  destruct (C56_statement (fun p => p) (fun p => p) src src ts o x i id_monotone id_monotone T ltac:(rewrite moved_id; exact T) (proj1 N) P (or_introl Z)) as (j & Q & _).
  rewrite P in Q. injection Q as Q _. rewrite <- Q in P'. exists i'. split; [exact P'|]. now apply issues_id.
Qed.
Theorem C57_statements_in_place src src' ts ts' o l i :
  written_tokens src ts -> written_tokens src' ts' -> recased_in_place ts ts' -> blen src' = blen src ->
  caseless ts -> o_warn_caps o = false -> parse_statements src [] o = Returns l i -> parse_statements src' [] o <> NoFuel -> errors i = [] ->
  exists i', parse_statements src' [] o = Returns l i' /\ Forall2 same_issue_elsewhere i i'.
Proof.
  intros T T' R B N Ho P Fn Z. destruct (C57_statements _ _ src src' ts ts' o l i id_monotone id_monotone T T' (in_place _ _ _ _ R B) N Ho P Fn Z) as (i' & P' & F).
  destruct (C56_statements (fun p => p) (fun p => p) src src ts o l i id_monotone id_monotone T ltac:(rewrite moved_id; exact T) (proj1 N) P ltac:(congruence) (or_introl Z)) as (j & Q & _).
  rewrite P in Q. injection Q as Q _. rewrite <- Q in P'. exists i'. split; [exact P'|]. now apply issues_id.
Qed.

(** ** Examples *)
Definition quiet : options := mkOptions MariaDB ArgNone true false false.
Definition shouted : text := txt "SELECT `a`, CASE WHEN `b` IS NULL THEN 1 ELSE 2 END AS `c` FROM `t` WHERE NOT `d` LIKE 'x' ORDER BY `a` LIMIT 3;".
Definition whispered : text := txt "select `a`, case when `b` is Null then 1 eLse 2 end as `c` from `t` where not `d` like 'x' order by `a` limit 3;".
Ltac rcs := repeat (constructor; [split; [first [left; reflexivity | right; do 3 eexists; split; [reflexivity|split; [reflexivity|vm_compute; reflexivity] ] ]|reflexivity]|]); constructor.
Example C57_applies :
  written_tokens shouted (read shouted) /\ written_tokens whispered (read whispered) /\ recased_in_place (read shouted) (read whispered) /\ map fst (read shouted) <> map fst (read whispered) /\
  blen whispered = blen shouted /\ caseless (read shouted) /\ o_warn_caps quiet = false /\
  match parse_statements shouted [] quiet with Returns [x] [] => True | _ => False end /\ parse_statements whispered [] quiet = parse_statements shouted [] quiet.
Proof.
  split; [vm_compute; reflexivity|]. split; [vm_compute; reflexivity|]. split.
  { remember (read shouted) as r eqn:E. vm_compute in E. subst r. remember (read whispered) as r eqn:E. vm_compute in E. subst r. rcs. }
  split; [vm_compute; discriminate|]. split; [vm_compute; reflexivity|]. split; [split; [|split]; vm_compute; repeat (constructor; try discriminate; auto)|]. split; [reflexivity|]. split; [vm_compute; exact I|vm_compute; reflexivity].
Qed.
(** Of words that are not reserved the case does matter, when they are names; and of reserved words when they are parts of system variables. *)
Example C57_names : exists x y i j, parse_statement_api (txt "SELECT ABS") [] quiet = Returns x i /\ parse_statement_api (txt "SELECT abs") [] quiet = Returns y j /\ errors i = [] /\ x <> y.
Proof. do 4 eexists. split; [vm_compute; reflexivity|]. split; [vm_compute; reflexivity|]. split; [vm_compute; reflexivity|]. discriminate. Qed.
Example C57_variables : exists x y i j, parse_statement_api (txt "SELECT @@global.KEYS") [] quiet = Returns x i /\ parse_statement_api (txt "SELECT @@global.keys") [] quiet = Returns y j /\
  recased (TIdent (txt "KEYS") (KW "KEYS")) (TIdent (txt "keys") (KW "KEYS")) /\ errors i = [] /\ x <> y.
Proof. do 4 eexists. split; [vm_compute; reflexivity|]. split; [vm_compute; reflexivity|]. split; [right; do 3 eexists; repeat (split; [reflexivity|]); reflexivity|]. split; [vm_compute; reflexivity|]. discriminate. Qed.
