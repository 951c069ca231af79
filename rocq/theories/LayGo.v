(** C56: the tactic [lgo] that walks through a parser function twice at once, and the methods of [Parser]. *)
From Verif Require Export Layout LaySpan Dml Statement.
Local Open Scope string_scope.
Local Open Scope list_scope.

Create HintDb lspec discriminated.
#[export] Hint Constants Opaque : lspec.
#[export] Hint Variables Opaque : lspec.
#[export] Hint Transparent span text : lspec.

Create HintDb lerrs discriminated.
#[export] Hint Constants Opaque : lerrs.
#[export] Hint Variables Opaque : lerrs.
#[export] Hint Transparent span text : lerrs.

Section Rules.
Context {L : lenv}.
Lemma respan_app A (I : Respan A) f (l l' : list A) : respan f (l ++ l') = respan f l ++ respan f l'.
Proof. apply map_app. Qed.
Lemma respan_is_some A (I : Respan A) f (o : option A) : is_some (respan f o) = is_some o.
Proof. now destruct o. Qed.
Lemma pr_loop' S A (I : Respan S) (J : Respan A) n (b b' : S -> prog (S + A)) s s' : (forall s, pr rm (b s) (b' (respan lf s))) -> s' = respan lf s -> pr rm (loop n b s) (loop n b' s').
Proof. intros H ->. now apply pr_loop. Qed.
Lemma pr_loop_acc' S (I : Respan S) n (b b' : S -> prog (S * ctl)) s s' : (forall s, pr rm (b s) (b' (respan lf s))) -> s' = respan lf s -> pr rm (loop_acc n b s) (loop_acc n b' s').
Proof. intros H ->. now apply pr_loop_acc. Qed.
Lemma pr_assoc' A B (R : B -> B -> Prop) (p p' : prog A) (k k' : A -> prog B) : pr R (bind p (fun x => bind (Ret x) k)) (bind p' (fun x => bind (Ret x) k')) -> pr R (bind p k) (bind p' k').
Proof. intros H. exact H. Qed.
Lemma pr_tail X (I : Respan X) (c c' : prog X) : pr rm (bind c Ret) (bind c' Ret) -> pr rm c c'.
Proof.
  intros H st st' Hs. specialize (H st st' Hs). rewrite !run_bind in H. destruct (run c st), (run c' st'); exact H.
Qed.
Lemma pr_err_at B (R : B -> B -> Prop) m s s' k k' : s' = smap s -> pr R (k tt) (k' tt) -> pr R (bind (err_at m s) k) (bind (err_at m s') k').
Proof. intros -> H. unfold err_at. destruct s; [apply pr_panic|apply pr_panic|now apply pr_err]. Qed.
Lemma pr_err_at_frag B (R : B -> B -> Prop) m s s' fm fs fs' k k' : s' = smap s -> fs' = lf fs -> pr R (k tt) (k' tt) -> pr R (bind (err_at_frag m s fm fs) k) (bind (err_at_frag m s' fm fs') k').
Proof. intros -> -> H. unfold err_at_frag. destruct s; [apply pr_panic|exact H|now apply pr_err_frags]. Qed.
(** Failures that have been reported. *)
Lemma ne_issue m s st st' : p_issue Error m s [] st = XOk tt st' -> ne st' = S (ne st).
Proof.
  unfold p_issue. destruct (slice _ _ _); [|discriminate]. cbn [build_frags]. injection 1 as <-. unfold ne. cbn [set_issues s_issues]. rewrite filter_app, app_length. cbn. lia.
Qed.
Lemma errs_ret A (a : A) : errs (Ret a).
Proof. intros st st' E. discriminate. Qed.
Lemma errs_bind A B (p : prog A) (k : A -> prog B) : errs p -> (forall a, errs (k a)) -> errs (bind p k).
Proof.
  intros H1 H2 st st' E. rewrite run_bind in E. destruct (run p st) as [a st1|st1| |] eqn:E1; try discriminate.
  - pose proof (grown_ok _ _ _ _ _ E1). apply H2 in E. lia.
  - injection E as <-. now apply H1.
Qed.
Lemma errs_perf X (c : op X) : errs (perf c).
Proof. intros st st' E. rewrite run_perf in E. now destruct (exec c st). Qed.
Lemma errs_expected_failure A m : errs (expected_failure (A:=A) m).
Proof.
  intros st st' E. unfold expected_failure, expected_error in E. rewrite !run_bind in E. unfold cur_span at 1 in E. rewrite run_perf in E. cbn [exec] in E.
  unfold err_frags in E. rewrite run_perf in E. cbn [exec] in E.
  destruct (p_issue _ _ _ _ _) as [[] st1|w|] eqn:E1; try discriminate. cbn [run] in E. injection E as <-. apply ne_issue in E1. lia.
Qed.
Lemma errs_loop S A n (b : S -> prog (S + A)) : (forall s, errs (b s)) -> forall s, errs (loop n b s).
Proof. intros H. induction n as [|n IH]; intros s; cbn [loop]; [intros st st' E; discriminate|]. apply errs_bind; [apply H|]. intros [a|a]; [apply IH|apply errs_ret]. Qed.
End Rules.
Ltac ego :=
  cbv beta zeta; lazymatch goal with
  | |- errs (Ret _) => apply errs_ret
  | |- errs (expected_failure _) => apply errs_expected_failure
  | |- errs (bind _ _) => apply errs_bind; [ego|intros; ego]
  | |- errs (loop _ _ _) => apply errs_loop; intros; ego
  | |- errs token => apply errs_perf
  | |- errs cur_span => apply errs_perf
  | |- errs next => apply errs_perf
  | |- errs dialect_ => apply errs_perf
  | |- errs (err _ _) => apply errs_perf
  | |- errs (err_frags _ _ _) => apply errs_perf
  | |- errs (perf _) => apply errs_perf
  | |- errs consume => unfold consume; ego
  | |- errs (match ?x with _ => _ end) => destruct x; ego
  | |- _ => solve [eauto with lerrs nocore]
  end.
Lemma consume_int_errs m : errs (consume_int m).
Proof. unfold consume_int. ego. Qed.
Lemma consume_keyword_errs k : errs (consume_keyword k).
Proof. unfold consume_keyword. ego. Qed.
#[export] Hint Resolve consume_keyword_errs : lerrs.
Lemma consume_token_errs w : errs (consume_token w).
Proof. unfold consume_token. ego. Qed.
Lemma skip_token_errs w : errs (skip_token w).
Proof. unfold skip_token. ego. Qed.
Lemma consume_plain_identifier_errs : errs consume_plain_identifier.
Proof. unfold consume_plain_identifier. ego. Qed.
Lemma consume_keywords_from_errs ks : forall s, errs (consume_keywords_from s ks).
Proof. induction ks as [|k ks IH]; intros s; cbn [consume_keywords_from]; ego. Qed.
#[export] Hint Resolve consume_keywords_from_errs : lerrs.
Lemma consume_keywords_errs ks : errs (consume_keywords ks).
Proof. unfold consume_keywords. destruct ks; [intros st st' E; discriminate|]. ego. Qed.
#[export] Hint Resolve consume_keywords_errs : lerrs.
#[export] Hint Resolve consume_int_errs consume_keyword_errs consume_token_errs skip_token_errs consume_plain_identifier_errs : lerrs.
Lemma parse_qualified_name_errs n : errs (parse_qualified_name n).
Proof. unfold parse_qualified_name. ego. Qed.
#[export] Hint Resolve parse_qualified_name_errs : lerrs.

Ltac lhead x := lazymatch x with ?f _ => lhead f | _ => x end.
Ltac lresp T I f x :=
  lazymatch I with
  | Rs_unit => change (@respan T I f x) with x
  | Rs_bool => change (@respan T I f x) with x
  | Rs_N => change (@respan T I f x) with x
  | Rs_string => change (@respan T I f x) with x
  | Rs_text => change (@respan T I f x) with x
  | Rs_listN => change (@respan T I f x) with x
  | Rs_tok => change (@respan T I f x) with x
  | Rs_unit_ => change (@respan T I f x) with x
  | Rs_func => change (@respan T I f x) with x
  | Rs_variable => change (@respan T I f x) with x
  | Rs_binop => change (@respan T I f x) with x
  | Rs_is => change (@respan T I f x) with x
  | Rs_unop => change (@respan T I f x) with x
  | Rs_ctl => change (@respan T I f x) with x
  | Rs_span => change (@respan T I f x) with (f x)
  | Rs_list ?A ?J => lazymatch x with
      | nil => change (@respan T I f x) with (@nil A)
      | ?a :: ?l => change (@respan T I f x) with (@respan A J f a :: @respan T I f l)
      | ?a ++ ?l => rewrite (@respan_app A J f a l)
      end
  | _ => let h := lhead x in is_constructor h; let v := eval hnf in (@respan T I f x) in change (@respan T I f x) with v
  end.
Ltac lrw := idtac.
(** The tokens of the other side. *)
Ltac lrel := repeat match goal with
  | H : trel ?t ?t' |- _ => is_var t'; first
      [ is_var t; progress (rewrite ?(rel_kw t t' H), ?(rel_eqb t t' H), ?(rel_assoc t t' H), ?(rel_unres t t' H), ?(rel_string t t' H), ?(rel_creatable t t' H), ?(rel_time_unit t t' H), ?(rel_known t t' H) by first [assumption | intros _; reflexivity])
      | lazymatch t with
        | TIdent ?v ?k => let Hp := fresh "Hp" in let v' := fresh "v'" in let Hv := fresh "Hv" in destruct H as (Hp & v' & -> & [-> | Hv])
        | TEof => destruct H as [_ ->]
        | _ => is_constructor_app t; let Hp := fresh "Hp" in destruct H as [Hp ->]
        end ]
  end
with is_constructor_app t := let h := lhead t in is_constructor h.
Ltac lnm := cbv beta zeta; repeat match goal with |- context [@respan ?T ?I ?f ?x] => lresp T I f x end; cbv beta iota; rewrite ?respan_is_some; lrel; lrw; cbv beta iota.
Ltac lhook := fail.
Ltac lvar x := lazymatch x with @respan _ _ _ ?y => lvar y | _ => x end.
Ltac lsame :=
  unfold rm; lnm; cbn [fst snd]; rewrite ?lf_join;
  first
  [ reflexivity
  | lhook
  | match goal with |- context [match ?x with _ => _ end] => let y := lvar x in is_var y; destruct y; lsame end
  | match goal with |- context [@respan ?T ?I ?f ?y] => lazymatch I with Rs_list _ _ => fail | _ => idtac end; is_var y; destruct y; progress lnm; lsame end ].
Ltac lspec := solve [eauto with lspec].
#[export] Hint Extern 5 (_ = respan _ _) => (solve [lsame]) : lspec.
#[export] Hint Extern 5 (_ = lf _) => (solve [lsame]) : lspec.
Ltac lpairs := repeat match goal with x : (?A * ?B)%type |- _ => is_var x; destruct x | x : tagged |- _ => destruct x | x : sstring |- _ => destruct x | x : ident |- _ => destruct x end; lnm; cbn [fst snd tag tag_span ss_value ss_span id_value id_span].
Ltac lintro :=
  let a := fresh "a" in let a' := fresh "a'" in let H := fresh "H" in intros a a' H; unfold rm in H; subst a';
  lpairs.
Ltac lrpt := let t := fresh "t" in let t' := fresh "t'" in let H := fresh "H" in first [assumption | intros t t' H; cbv beta delta [rparen_or_comma is_rparen]; lrel; reflexivity].
Ltac lspn := lazymatch goal with |- jn _ _ = smap (jn _ _) => apply jn_eq; lspn | |- @spn ?T ?I ?x' = smap (@spn ?T ?I ?x) => let R := constr:(_ : Respan T) in replace x' with (@respan T R lf x) by (symmetry; lsame); exact (@spl _ T R I _ x) end.
Ltac lerrs := solve [eauto with lerrs].
Ltac lzero S := let H1 := fresh in let H2 := fresh in destruct (l_zero S) as [H1 H2]; lnm; unfold lf; cbn [fst snd]; rewrite H1, H2; reflexivity.
Ltac ldestr x := let y := lvar x in first [ is_var y; destruct y | let E := fresh "E" in destruct y eqn:E ].
Ltac lcases := match goal with H : @lcase ?L0 = true /\ _ |- _ => destruct H end.
Ltac lcontra := match goal with
  | H : @lcase ?L0 = true /\ false = true |- _ => exfalso; destruct H as [_ H]; discriminate H
  | H : @lcase ?L0 = true /\ _, E : @lcase ?L0 = false |- _ => exfalso; destruct H as [H _]; rewrite H in E; discriminate E
  | H : @lcase ?L0 = true /\ true = true, E : negb true = true |- _ => discriminate E
  | H : @lcase ?L0 = true /\ kw_reserved ?k = true, E : context [kw_reserved ?k] |- _ => lazymatch type of E with _ /\ _ => fail | _ => exfalso; rewrite (proj2 H) in E; discriminate E end end.
Ltac lgo :=
  lnm; try lcontra; lazymatch goal with |- pr ?R ?p ?p' => lgo_prog p p' | |- _ => idtac end
with lgo_prog p p' :=
  lazymatch p with
  | Ret _ => apply pr_ret; try solve [lsame]
  | Fail => apply pr_fail
  | expected_failure _ => apply pr_expected_failure
  | err_here _ => apply pr_err_here
  | ice _ => apply pr_err_here
  | todo _ => apply pr_err_here
  | Panic _ => apply pr_panic
  | OutOfFuel => apply pr_fuel
  | match ?x with _ => _ end => ldestr x; lgo
  | bind ?h ?k => lgo_bind h k
  | Try ?h ?k => lazymatch type of h with prog ?T => let I := constr:(_ : Respan T) in eapply (pr_try T _ (@rm _ T I)); [lgo_step h|lintro; lgo|lgo] end
  | expect ?x _ => unfold expect; lgo
  | consume => apply pr_tail; lgo
  | token => apply pr_tail; lgo
  | _ => lgo_step p
  end
with lgo_step h :=
  lazymatch h with
  | recovered (_, (0, 0)) _ _ _ => apply pr_recovered_errs; [lrpt|lgo|lerrs|lerrs|let S := fresh "S" in intros S; lzero S]
  | recovered _ _ _ _ => apply pr_recovered; [lrpt|lgo|try solve [lsame]]
  | recovered_acc _ _ _ => apply pr_recovered_acc; [lrpt|lgo]
  | @loop ?S ?A _ _ _ => let I := constr:(_ : Respan S) in let J := constr:(_ : Respan A) in eapply (pr_loop' S A I J); [intros; lpairs; lgo|try solve [lsame]]
  | @loop_acc ?S _ _ _ => let I := constr:(_ : Respan S) in eapply (pr_loop_acc' S I); [intros; lpairs; lgo|try solve [lsame]]
  | bind _ _ => lgo
  | Try _ _ => lgo
  | Ret _ => lgo
  | match _ with _ => _ end => lgo
  | expect _ _ => lgo
  | expected_failure _ => lgo
  | err_here _ => lgo
  | consume => lgo
  | token => lgo
  | _ => try lspec
  end
with lgo_bind h k :=
  lazymatch h with
  | token => apply pr_token; intros; lgo
  | peek => apply pr_peek; intros; lgo
  | cur_span => apply pr_span; intros; lgo
  | dialect_ => apply pr_dialect; intros; lgo
  | perf OArguments => apply pr_arguments; intros; lgo
  | perf OListHack => apply pr_listhack; intros; lgo
  | perf ODelim => apply pr_delim; intros; lgo
  | perf OArg => apply pr_arg; intros; lgo
  | perf (OSetDelim _) => apply pr_setdelim; [try solve [assumption|intros _; reflexivity]|intros; lgo]
  | perf OPermit => apply pr_permit; intros; lgo
  | perf (OSetPermit _) => apply pr_setpermit; intros; lgo
  | perf (ORecover _) => apply pr_recover; [lrpt|intros; lgo]
  | perf (OLintIdent _ _ _) => apply pr_lint_ident; [try solve [lsame]|lgo]
  | perf (OLintCaps _ _) => first [apply pr_lint_caps; [try solve [lsame]|] | lcases; apply pr_lint_caps_case; [assumption|] ]; lgo
  | perf (OIssue _ _ _ _) => apply pr_issue; [try solve [lsame]|try solve [lsame]|lgo]
  | Ret ?a => lazymatch goal with |- pr ?R (bind (Ret ?a) ?k) (bind (Ret ?b) ?k') => change (pr R (k a) (k' b)) end; lgo
  | next => apply pr_next; lgo
  | consume => apply pr_consume; intros; lgo
  | err _ _ => apply pr_err; [try solve [lsame]|lgo]
  | err_frags _ _ _ => first [apply pr_err_frags; [try solve [lsame]|try solve [lsame]|lgo] | lcases; apply pr_err_case; assumption]
  | err_at _ _ => apply pr_err_at; [try lspn|lgo]
  | err_at_frag _ _ _ _ => apply pr_err_at_frag; [try lspn|try solve [lsame]|lgo]
  | warn _ _ => apply pr_warn; [try solve [lsame]|lgo]
  | expected_error _ => apply pr_expected_error; lgo
  | expected_failure _ => apply pr_expected_failure_bind
  | err_here _ => apply pr_err_here_bind
  | ice _ => apply pr_err_here_bind
  | todo _ => apply pr_err_here_bind
  | recovered_end _ _ => apply pr_recovered_end; [lrpt|lgo]
  | recover _ => apply pr_recover_; [lrpt|lgo]
  | Panic _ => apply pr_panic
  | (match ?x with _ => _ end) => lazymatch type of h with prog unit => ldestr x; lgo | _ => lgo_gen h end
  | bind _ _ => lazymatch type of h with prog unit => apply pr_assoc; lgo | _ => lgo_gen h end
  | _ => lgo_gen h
  end
with lgo_gen h :=
  lazymatch type of h with prog ?T => let I := constr:(_ : Respan T) in eapply (pr_bind T _ (@rm _ T I)); [lgo_step h|lintro; lgo] end.

Section Methods.
Context {L : lenv}.
Lemma consume_keyword_l k : pr rm (consume_keyword k) (consume_keyword k).
Proof. unfold consume_keyword. lgo. Qed.
Hint Resolve consume_keyword_l : lspec.
Lemma consume_keywords_from_l ks : forall s s', s' = lf s -> pr rm (consume_keywords_from s ks) (consume_keywords_from s' ks).
Proof. induction ks as [|k ks IH]; intros s s' ->; cbn [consume_keywords_from]; lgo. Qed.
Hint Resolve consume_keywords_from_l : lspec.
Lemma consume_keywords_l ks : pr rm (consume_keywords ks) (consume_keywords ks).
Proof. unfold consume_keywords. lgo. Qed.
Lemma skip_keyword_l k : pr rm (skip_keyword k) (skip_keyword k).
Proof. unfold skip_keyword. lgo. Qed.
Lemma consume_token_l w : okd w -> pr rm (consume_token w) (consume_token w).
Proof. intros. unfold consume_token. lgo. Qed.
Lemma skip_token_l w : okd w -> pr rm (skip_token w) (skip_token w).
Proof. intros. unfold skip_token. lgo. Qed.
Lemma token_to_plain_identifier_l x x' s s' : trel x x' -> s' = lf s -> pr rm (token_to_plain_identifier x s) (token_to_plain_identifier x' s').
Proof. intros Hx ->. unfold token_to_plain_identifier. lgo. Qed.
Lemma consume_plain_identifier_l : pr rm consume_plain_identifier consume_plain_identifier.
Proof. unfold consume_plain_identifier. lgo. Qed.
Lemma consume_string_l n : pr rm (consume_string n) (consume_string n).
Proof. unfold consume_string. lgo. Qed.
Lemma consume_int_l m : pr rm (consume_int m) (consume_int m).
Proof. unfold consume_int. lgo. Qed.
Lemma consume_float_l : pr rm consume_float consume_float.
Proof. unfold consume_float. lgo. Qed.
End Methods.
#[export] Hint Extern 1 (okd _) => (first [assumption | intros _; reflexivity]) : lspec.
#[export] Hint Extern 1 (trel _ _) => (first [assumption | apply rel_same; split; [reflexivity|intros; reflexivity] ]) : lspec.
#[export] Hint Resolve consume_keyword_l consume_keywords_l consume_keywords_from_l skip_keyword_l consume_token_l skip_token_l
  token_to_plain_identifier_l consume_plain_identifier_l consume_string_l consume_int_l consume_float_l : lspec.
Section Lists.
Context {L : lenv}.
Lemma sep_list_l T (I : Respan T) n (p p' : prog T) : pr rm p p' -> pr rm (sep_list n p) (sep_list n p').
Proof. intros H. unfold sep_list. lgo. Qed.
Lemma sep_list_recovered_l T (I : Respan T) n x (p p' : prog T) : pr rm p p' -> pr rm (sep_list_recovered n x p) (sep_list_recovered n x p').
Proof. intros H. unfold sep_list_recovered. lgo. Qed.
Lemma recovered_list_l T (I : Respan T) n (p p' : prog T) : pr rm p p' -> pr rm (recovered_list n p) (recovered_list n p').
Proof. intros H. unfold recovered_list. lgo. Qed.
Lemma recovered_list2_l T (I : Respan T) n (p p' : prog T) : pr rm p p' -> pr rm (recovered_list2 n p) (recovered_list2 n p').
Proof. intros H. unfold recovered_list2. lgo. Qed.
End Lists.
#[export] Hint Extern 1 (pr rm (sep_list _ _) _) => (apply sep_list_l; solve [lgo]) : lspec.
#[export] Hint Extern 1 (pr rm (sep_list_recovered _ _ _) _) => (apply sep_list_recovered_l; solve [lgo]) : lspec.
#[export] Hint Extern 1 (pr rm (recovered_list _ _) _) => (apply recovered_list_l; solve [lgo]) : lspec.
#[export] Hint Extern 1 (pr rm (recovered_list2 _ _) _) => (apply recovered_list2_l; solve [lgo]) : lspec.
