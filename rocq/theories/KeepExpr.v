(** C53, C54, C55: the functions of src/expression.rs. *)
From Verif Require Export KeepQuery Expr SafeExpr.
Local Open Scope string_scope.
Local Open Scope list_scope.

Section Red.
Context {V : wenv}.
Definition kmW (s : stack) : nat := Wk (@atoms (list member) (Atoms_list Atoms_member) s).
Lemma kmW_cons x s : kmW (x :: s) = kW x + kmW s.
Proof. apply Wk_app. Qed.
Lemma kmW_e e : kW (MExpr e) = kW e. Proof. reflexivity. Qed.
Lemma kun_W o s e : kW (EUnary o s e) = kW (MUn o s) + kW e.
Proof. unfold kW. autorewrite with at_ex. change (atoms (MUn o s)) with ([ALeaf (LUn o) s] ++ (atoms o ++ atoms s)). rewrite !Wk_app. lia. Qed.
Lemma kbin_W o s l e : kW (EBinary o s l e) = kW (MBin o s) + kW l + kW e.
Proof. unfold kW. autorewrite with at_ex. change (atoms (MBin o s)) with ([ALeaf (LBin o) s] ++ (atoms o ++ atoms s)). rewrite !Wk_app. lia. Qed.
Definition gr (x : rres) (n : nat) : Prop := match x with RedOk s => n <= kmW s | RedErr _ => True end.
(** One step: [None] is the end of the loop, with the stack as it was. *)
Definition gor (stk : stack) (x : option rres) (n : nat) : Prop := match x with Some y => gr y n | None => n <= kmW stk end.
Lemma reduce_loop_W prio n : forall e stk, length stk < n -> match reduce_loop prio e stk with RedOk s => kmW s = kW e + kmW stk | RedErr _ => True end.
Proof.
  induction n as [|n IH]; intros e stk L; [lia|]. destruct stk as [|[x|o s|o s] stk]; cbn [reduce_loop]; [now rewrite kmW_cons, kmW_e|exact I| |].
  - destruct (_ <? _)%N; [now rewrite kmW_cons, kmW_e|]. destruct stk as [|[l| |] stk]; try exact I. cbn [length] in L. specialize (IH (EBinary o s l e) stk ltac:(lia)).
    destruct (reduce_loop _ _ _); auto. rewrite IH, !kmW_cons, kmW_e, kbin_W. lia.
  - destruct (_ <? _)%N; [now rewrite kmW_cons, kmW_e|]. cbn [length] in L. specialize (IH (EUnary o s e) stk ltac:(lia)).
    destruct (reduce_loop _ _ _); auto. rewrite IH, !kmW_cons, kun_W. lia.
Qed.
Lemma reduce_W prio stk : match reduce prio stk with RedOk s => kmW s = kmW stk | RedErr _ => True end.
Proof. destruct stk as [|[e| |] stk]; cbn [reduce]; try exact I. rewrite kmW_cons, kmW_e. apply (reduce_loop_W prio (S (length stk))). lia. Qed.
Lemma shift_expr_W e stk m : m <= kW e + kmW stk -> gr (shift_expr e stk) m.
Proof. unfold shift_expr. destruct (top_expr stk); [intros; exact I|]. cbn [gr]. now rewrite kmW_cons, kmW_e. Qed.
Lemma shift_unary_W s o stk m : m <= kmW stk -> gr (shift_unary s o stk) m.
Proof. unfold shift_unary. destruct (top_expr stk); [intros; exact I|]. cbn [gr]. rewrite kmW_cons. lia. Qed.
Lemma shift_binop_W s o stk m : m <= kmW stk -> gr (shift_binop s o stk) m.
Proof. unfold shift_binop. pose proof (reduce_W (bin_priority o) stk). destruct (reduce _ _); [|intros; exact I]. cbn [gr]. rewrite kmW_cons. lia. Qed.
End Red.
Ltac khook ::=
  lazymatch goal with
  | |- gr (match ?x with _ => _ end) _ => destr x; knm; khook
  | |- gr (shift_expr _ _) _ => apply shift_expr_W; kwx; kwl
  | |- gr (shift_unary _ _ _) _ => apply shift_unary_W; kwl
  | |- gr (shift_binop _ _ _) _ => apply shift_binop_W; rewrite ?kmW_cons, ?kmW_e; kwl
  | |- gor _ (Some _) _ => cbn [gor]; khook
  | |- gor _ None _ => cbn [gor]; lia
  | |- _ => idtac
  end.

Section R.
Context {E : kenv}.
Variable r : recs.
Context {K : recs_keep r}.
Lemma parse_expression_outer_k : keeps_ (parse_expression_outer r).
Proof. unfold parse_expression_outer. kgo. Qed.
Lemma parse_expression_paren_k : keeps_ (parse_expression_paren r).
Proof. unfold parse_expression_paren. kgo. Qed.
Hint Resolve parse_expression_outer_k parse_expression_paren_k : kspec.
Lemma if_k A (b : bool) t c (g : A -> nat -> Prop) p q : (b = true -> kp t c g p) -> kp t c g q -> kp t c g (if b then p else q).
Proof. destruct b; auto. Qed.
Lemma leaf_W l s : Wk [ALeaf l s] = kwt (ALeaf l s).
Proof. unfold Wk. cbn [map list_sum fold_right]. lia. Qed.
Lemma function_of_k x s n t : held x s n -> kp t 0 (fun f m => m = 0 /\ n <= kwt (ALeaf (LFunc f) s)) (function_of x s).
Proof.
  intros H. unfold function_of. destruct (kw_assoc function_table x) as [[k f]|] eqn:Ka.
  { apply kp_ret. split; [reflexivity|]. rewrite (held_unmarked x s n); [lia| |exact H]. exact (kw_assoc_mark _ _ _ _ Ka). }
  destruct x; try apply kp_err. destruct (negb (kw_reserved k)); [|apply kp_err]. apply kp_ret. split; [reflexivity|].
  destruct H as [->|(-> & M & -> & P)]; [lia|]. cbn [placed] in P. subst. apply mark_name in M. apply (k_name M).
Qed.
Lemma parse_function_k x s n t : held x s n -> kp t n uW (parse_function r x s).
Proof.
  intros H. unfold parse_function. eapply kp_step; [kspec|kintro]. eapply kp_bind; [apply function_of_k, H|]. intros f m [-> Hf] t1.
  kgo. all: rewrite leaf_W; lia.
Qed.
Lemma parse_in_list_k : keeps_ (parse_in_list r).
Proof. unfold parse_in_list. kgo. Qed.
Hint Resolve parse_in_list_k : kspec.
Lemma pop_k B t c stk msg (g : B -> nat -> Prop) (k : expr * stack -> prog B) : c <= kmW stk ->
  (forall e stk', c <= kW e + kmW stk' -> kp t c g (k (e, stk'))) -> kp t c g (bind (pop_lhs stk msg) k).
Proof.
  intros L H. unfold pop_lhs. pose proof (reduce_W in_priority stk) as W1. destruct (reduce in_priority stk) as [[|[e| |] stk']|m]; try apply kp_err_here.
  apply (H e stk'). rewrite kmW_cons, kmW_e in W1. lia.
Qed.
Lemma step_in_k t c stk : c <= kmW stk -> kp t c gr (step_in r stk).
Proof. intros L. unfold step_in. apply pop_k; [exact L|]. intros. kgo. Qed.
Lemma step_is_k t c stk : c <= kmW stk -> kp t c gr (step_is stk).
Proof. intros L. unfold step_is. apply pop_k; [exact L|]. intros. kgo. Qed.
Lemma step_not_k t c stk : c <= kmW stk -> kp t c gr (step_not r stk).
Proof. intros L. unfold step_not. apply pop_k; [exact L|]. intros. kgo. Qed.
Lemma interval_parts_k s l : keeps_ (interval_parts s l).
Proof. induction l; cbn [interval_parts]; kgo. Qed.
Hint Resolve interval_parts_k : kspec.
Lemma consume_time_unit_k : keeps_ consume_time_unit.
Proof. unfold consume_time_unit, parse_time_unit. kgo. destruct (kw_assoc time_unit_table t) as [[]|] eqn:X; [|discriminate]. exact (kw_assoc_mark _ _ _ _ X). Qed.
Hint Resolve consume_time_unit_k : kspec.
Lemma step_interval_k t c stk : (forall c, kkind <> KLits c) -> mark t = false -> c <= kmW stk -> kp t c gr (step_interval r stk).
Proof.
  intros Ka M L. unfold step_interval. kgo.
  all: rewrite ?light_int, ?light_string in * by exact Ka; lia.
Qed.
Lemma step_timestamp_k x t c stk : (forall s u a b, kW a + kW b <= kW (x s u a b)) -> mark t = false -> c <= kmW stk -> kp t c gr (step_timestamp r x stk).
Proof. intros H M L. unfold step_timestamp. kgo. match goal with |- context [kW (x ?a ?b ?c ?d)] => pose proof (H a b c d) end; lia. Qed.
Lemma step_cast_k t c stk : c <= kmW stk -> kp t c gr (step_cast r stk).
Proof. intros L. unfold step_cast. kgo. Qed.
Lemma step_aggregate_k k x t c stk : (forall s u a, kW a <= kW (x s u a)) -> c <= kmW stk -> kp t c gr (step_aggregate r k x stk).
Proof. intros H L. unfold step_aggregate. kgo. match goal with |- context [kW (x ?a ?b ?c)] => pose proof (H a b c) end; lia. Qed.
Lemma step_extract_k t c stk : c <= kmW stk -> kp t c gr (step_extract r stk).
Proof. intros L. unfold step_extract. kgo. Qed.
Lemma kparts_W (l : list idpart) : kW (mkParts l) = kW l.
Proof.
  destruct l; [|reflexivity]. rewrite kW_nil. now apply Wk_light.
Qed.
Lemma parse_id_parts_k n x t c : c <= kW x -> kp t c uW (parse_id_parts n x).
Proof. intros L. unfold parse_id_parts. kgo. Qed.
(** What is in hand goes through the next parser. *)
Lemma kp_frame A B t d c (g : B -> nat -> Prop) (g0 : A -> nat -> Prop) (p : prog A) (k : A -> prog B) : kp t c g0 p ->
  (forall a n, g0 a n -> forall t1, kp t1 (d + n) g (k a)) -> kp t (d + c) g (bind p k).
Proof. intros H1 H2. eapply rk_bind; [exact H1|]. cbv beta. intros a n L t1. eapply rk_conseq; [apply (H2 a _ L)|]. cbv beta. intros b m. now rewrite !Nat.add_assoc. Qed.
Lemma step_word_k x k t c stk : t = TIdent x k -> c <= kmW stk -> kp t c gr (step_word r t stk).
Proof.
  intros Ht L. unfold step_word. apply kp_hold; [now subst t|]. intros s n H t1. apply kp_token. intros _. apply if_k; [intros _|].
  - eapply kp_frame; [apply parse_function_k, H|kintro]. kgo.
  - destruct (kw_assoc bare_functions t) as [[w f]|] eqn:Ka.
    + apply (held_unmarked t s n (kw_assoc_mark _ _ _ _ Ka)) in H. kgo.
    + eapply kp_frame; [apply token_to_plain_identifier_k, H|kintro]. eapply kp_frame; [apply parse_id_parts_k; change (kW (PName a)) with (kW a); lia|kintro].
      kgo. match goal with |- context [Wk ?y] => change (Wk y) with (kW (mkParts a0)) end. rewrite kparts_W. lia.
Qed.
Lemma parse_whens_k t c : c <= 0 -> kp t c (gfine uW) (parse_whens r).
Proof.
  intros L. unfold parse_whens. eapply kp_flow.
  - eapply (kp_loop_acc _ uW); [|unfold uW; rewrite kW_nil; exact L]. unfold uW at 1. intros. kgo.
  - intros [l ok] n [H1 H2] t1. cbn [fst snd] in *. subst ok. unfold uW in H2. kgo.
Qed.
Lemma step_case_k t c stk : c <= kmW stk -> kp t c gr (step_case r stk).
Proof.
  intros L. unfold step_case. kgo. eapply (kp_bind _ _ _ _ _ uW); [apply kp_recovered_acc, parse_whens_k; lia|kintro]. kgo.
Qed.
Lemma step_variable_k t c stk : c <= kmW stk -> kp t c gr (step_variable stk).
Proof.
  intros L. unfold step_variable. eapply kp_step; [kspec|kintro]. eapply (kp_bind _ _ _ _ _ uW); [solve [kgo]|kintro]. eapply kp_step; [kspec|kintro].
  apply kp_token. intros _. destruct (is_kw t2 "TIME_ZONE") eqn:Tz; [change (bind (Ret ?x) ?k) with (k x); cbv beta; kgo|].
  destruct t2; try apply kp_expected_failure. change (bind (Ret ?x) ?k) with (k x). cbv beta. apply kp_hold; [reflexivity|]. intros s m H t9.
  assert (X : m <= kwt (ALeaf (LVar (VOther t2)) s)). { destruct H as [->|(-> & M & -> & P)]; [lia|]. cbn [placed] in P. subst. apply mark_name in M. apply (k_name M). }
  kgo. all: rewrite leaf_W; lia.
Qed.
Lemma some_k t c (p : prog rres) stk : kp t c gr p -> kp t c (gor stk) (some_ p).
Proof. intros H. unfold some_. eapply kp_flow; [exact H|]. intros a n X t1. apply kp_ret. exact X. Qed.
Lemma bin_k t c o stk : mark t = false -> c <= kmW stk -> kp t c (gor stk) (bin o stk).
Proof. intros M L. unfold bin. kgo. Qed.
Lemma un_k t c o stk : mark t = false -> c <= kmW stk -> kp t c (gor stk) (un o stk).
Proof. intros M L. unfold un. kgo. Qed.
Lemma arg_W n : kkind = KArgs -> n = knum \/ kfree = true -> 1 <= kW (EArg (mkArg n kspan)).
Proof. intros Ka Hn. unfold kW. autorewrite with at_ex. unfold atoms, Atoms_argref. cbn [arg_no arg_span]. pose proof (k_wt Ka n Hn). unfold Wk. cbn [map list_sum fold_right]. lia. Qed.
Lemma step_arg_k t u c stk : counted u = true -> tok_eqb t u = true -> c <= kmW stk -> kp t c gr (step_arg EArg (consume_token u) stk).
Proof.
  intros M Et L. unfold step_arg. destruct kkind eqn:Ka.
  { eapply (rk_arg _ t u); [exact Ka|exact M|exact Et|]. intros n s t1. split; [intros Hs Hn|intros Hs]; apply rk_ret.
    + apply shift_expr_W. subst s. pose proof (arg_W n Ka Hn). lia.
    + apply shift_expr_W. lia. }
  all: assert (Mu : mark u = false) by (destruct u; try discriminate M; unfold mark; now rewrite Ka).
  all: eapply rk_hack; [unfold silenced; rewrite Ka; apply orb_true_r|]; intros n; change (kp t c gr (s <- consume_token u ;; Ret (shift_expr (EArg (mkArg n s)) stk))); kgo.
Qed.
Lemma step_dollar_k n c stk : c <= kmW stk -> kp (TDollarArg n) c (gor stk) (s <- consume ;; Ret (Some (shift_expr (EArg (mkArg (n - 1)%N s)) stk))).
Proof.
  intros L. apply kp_literal; [reflexivity|]. intros s t1. split; [intros Mk Hs Hp|]; apply kp_ret; cbn [gor]; apply shift_expr_W; [|lia].
  unfold mark in Mk. destruct kkind as [|[]|] eqn:Ka; try discriminate. subst s. cbn [placed] in Hp. pose proof (arg_W (n - 1) Ka (or_introl Hp)). lia.
Qed.
Lemma step_float_k v c stk : c <= kmW stk -> kp (TFloat v) c (gor stk) (v <- consume_float ;; Ret (Some (shift_expr (EFloat v) stk))).
Proof.
  intros L. eapply kp_bind; [apply consume_float_k|]. intros [x s] n L0 t1. cbn [fst snd] in L0. apply kp_ret. cbn [gor]. apply shift_expr_W.
  unfold kW. autorewrite with at_ex. rewrite Wk_app. cbn [fst snd]. unfold Wk at 1. cbn [map list_sum fold_right]. lia.
Qed.
Lemma step_list_k t c stk : o_list_hack ko = true -> c <= kmW stk -> kp t c gr (step_arg EListHack (consume_keyword "_LIST_") stk).
Proof.
  intros H L. unfold step_arg. eapply rk_hack; [unfold silenced; now rewrite H|]. intros n. change (kp t c gr (s <- consume_keyword "_LIST_" ;; Ret (shift_expr (EListHack (mkArg n s)) stk))). kgo.
Qed.
Lemma step_tail_k t c stk : c <= kmW stk -> kp t c (gor stk) (step_tail r t stk).
Proof.
  intros L. unfold step_tail. apply kp_arguments. apply if_k.
  { intros H. destruct t; try discriminate H. apply some_k. eapply step_word_k; [reflexivity|exact L]. }
  apply if_k. { intros H. apply andb_true_iff in H as [H _]. apply some_k, step_arg_k; [reflexivity|exact H|exact L]. }
  apply if_k. { intros H. apply andb_true_iff in H as [H _]. apply some_k, step_arg_k; [reflexivity|exact H|exact L]. }
  assert (F : kp t c (gor stk) (if tok_eqb t TLParen
     then consume_token TLParen;;; (e <- parse_expression_paren r;; consume_token TRParen;;; Ret (Some (shift_expr e stk)))
     else if is_kw t "EXISTS"
          then consume_keyword "EXISTS";;; (consume_token TLParen;;; (q <- r_compound r;; consume_token TRParen;;; Ret (Some (shift_expr (EExists q) stk))))
          else if is_kw t "CASE" then some_ (step_case r stk)
               else if tok_eqb t TAtAtGlobal || tok_eqb t TAtAtSession then some_ (step_variable stk) else Ret None)).
  { apply if_k; [intros _; kgo|]. apply if_k; [intros _; kgo|]. apply if_k; [intros _; now apply some_k, step_case_k|]. apply if_k; [intros _; now apply some_k, step_variable_k|]. kgo. }
  destruct t; try exact F. destruct (o_arguments ko); try exact F. now apply step_dollar_k.
Qed.
Lemma step_primary_k t c stk : c <= kmW stk -> kp t c (gor stk) (step_primary r t stk).
Proof.
  intros L. unfold step_primary. apply kp_listhack. pose proof (step_tail_k t c stk L) as T.
  apply if_k; [intros _; kgo|]. apply if_k; [intros _; kgo|]. apply if_k; [intros _; kgo|].
  apply if_k. { intros H. apply andb_true_iff in H as [_ H]. apply some_k, step_list_k; assumption. }
  assert (F : kp t c (gor stk) (if is_kw t "CAST" then some_ (step_cast r stk)
    else if is_kw t "COUNT" then some_ (step_aggregate r "COUNT" ECount stk)
    else if is_kw t "GROUP_CONCAT" then some_ (step_aggregate r "GROUP_CONCAT" EGroupConcat stk)
    else if is_kw t "EXTRACT" then some_ (step_extract r stk)
    else if is_kw t "LEFT" then
      p <- peek ;;
      if tok_eqb p TLParen then
        s <- consume ;; e <- parse_function r t s ;; Ret (Some (shift_expr e stk))
      else step_tail r t stk
    else step_tail r t stk)).
  { apply if_k; [intros _; now apply some_k, step_cast_k|].
    apply if_k; [intros _; apply some_k, step_aggregate_k; [|exact L]; intros; kwx; lia|].
    apply if_k; [intros _; apply some_k, step_aggregate_k; [|exact L]; intros; kwx; lia|].
    apply if_k; [intros _; now apply some_k, step_extract_k|].
    apply if_k; [|exact T]. intros H. apply kp_peek. intros x. apply if_k; [|exact T]. intros _. apply kp_consume; [exact (is_kw_mark _ _ H)|]. intros s t1. eapply kp_step; [intros t2; apply parse_function_k; now left|kintro]. kgo. }
  destruct t; try exact F; try (now apply step_float_k); kgo.
Qed.
Ltac ks := let H := fresh in apply if_k; [intros H; repeat (apply andb_true_iff in H as [H _])|].
Lemma expr_step_k inner t c stk : c <= kmW stk -> kp t c (gor stk) (expr_step r inner stk).
Proof.
  intros L. unfold expr_step. apply kp_token. intros T. cbv zeta. pose proof (step_primary_k t c stk L) as P. pose proof (tame_word t "INTERVAL" T ltac:(cbn; auto)) as Iv.
  repeat (apply if_k;
    [let H := fresh in intros H; repeat (apply andb_true_iff in H as [H _]);
     lazymatch goal with
     | |- kp _ _ _ (bin _ _) => apply bin_k; [unmarked|exact L]
     | |- kp _ _ _ (un _ _) => apply un_k; [unmarked|exact L]
     | |- kp _ _ _ (some_ (step_in _ _)) => now apply some_k, step_in_k
     | |- kp _ _ _ (some_ (step_is _)) => now apply some_k, step_is_k
     | |- kp _ _ _ (some_ (step_not _ _)) => now apply some_k, step_not_k
     | |- kp _ _ _ (some_ (step_interval _ _)) => apply some_k, step_interval_k; [auto|unmarked|exact L]
     | |- kp _ _ _ (some_ (step_timestamp _ _ _)) => apply some_k, step_timestamp_k; [intros; kwx; lia|unmarked|exact L]
     | |- _ => kgo
     end|]).
  exact P.
Qed.
Lemma parse_expression_k inner : keeps_ (parse_expression r inner).
Proof.
  intros t. unfold parse_expression. eapply (kp_bind _ _ _ _ _ (fun s n => n <= kmW s)).
  - apply kp_loop with (gx := fun (s : stack) n => n <= kmW s); [|cbn; lia]. intros stk t1 c L. eapply kp_flow; [apply expr_step_k, L|].
    intros [[s|m]|] n H t2; cbn [gor gr] in H; [now apply kp_ret|apply kp_err_here'|now apply kp_ret].
  - intros stk n L t1. pose proof (reduce_W 99999%N stk) as W1. destruct (reduce 99999 stk) as [[|[e| |] [|]]|m]; try apply kp_err_here'.
    rewrite kmW_cons, kmW_e in W1. change (kmW []) with 0 in W1. apply kp_ret. unfold uW. lia.
Qed.
End R.
#[export] Hint Resolve parse_expression_outer_k parse_expression_paren_k parse_expression_k : kspec.
