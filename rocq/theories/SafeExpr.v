(** Specifications of the functions of src/expression.rs. *)
From Verif Require Export SafeSelect Expr.
Local Open Scope string_scope.
Local Open Scope list_scope.

(** ** The stack of the reducer *)
(** An operand is expected next. *)
Fixpoint needb (stk : stack) : bool :=
  match stk with
  | [] => true
  | MUn _ _ :: r => needb r
  | MBin _ _ :: MExpr _ :: r => needb r
  | _ => false
  end.
Definition swfb (stk : stack) : bool :=
  match stk with MExpr _ :: r => needb r | _ => needb stk end.
(** Ill-formed stacks and internal error messages are made to count as a forbidden atom. *)
Definition bad (b : bool) : list atom := if b then [] else [AEmpty PUnwrap].
#[export] Instance Atoms_stack : Atoms stack := fun s => @atoms (list member) (Atoms_list Atoms_member) s ++ bad (swfb s).
Definition plain_any (m : text) : bool := forallb (fun d => plain_in d m) [MariaDB; PostgreSQL; Sqlite].
#[export] Instance Atoms_rres : Atoms rres := fun r =>
  match r with RedOk s => @atoms stack Atoms_stack s | RedErr m => bad (plain_any (txt m)) end.

Section Red.
Context {V : env}.
Definition mok (s : stack) : Prop := Forall (ok false) (@atoms (list member) (Atoms_list Atoms_member) s).
Definition mW (s : stack) : nat := W (@atoms (list member) (Atoms_list Atoms_member) s).
Lemma plain_any_plain m : plain_any m = true -> plain m = true.
Proof.
  unfold plain_any, plain. cbn [forallb]. intros H. apply andb_true_iff in H as [H1 H]. apply andb_true_iff in H as [H2 H].
  apply andb_true_iff in H as [H3 _]. destruct (o_dialect opts); assumption.
Qed.
Lemma bad_ok b x : Forall (ok b) (bad x) <-> x = true.
Proof. destruct x; cbn; split; auto; try discriminate. intros H. inversion H as [|a l H0 HH]. destruct H0 as [_ H0]. discriminate. Qed.
Lemma bad_W x : W (bad x) = 0.
Proof. destruct x; cbn; [reflexivity|]. now rewrite wt_empty. Qed.
Lemma stk_inv (s : stack) : Forall (ok false) (atoms s) <-> mok s /\ swfb s = true.
Proof. unfold atoms, Atoms_stack. rewrite Forall_app, bad_ok. reflexivity. Qed.
Lemma stk_W (s : stack) : gW s = mW s.
Proof. unfold gW, atoms, Atoms_stack. rewrite W_app, bad_W. unfold mW. lia. Qed.
Lemma mok_cons x s : mok (x :: s) <-> Forall (ok false) (atoms x) /\ mok s.
Proof. apply Forall_app. Qed.
Lemma mW_cons x s : mW (x :: s) = gW x + mW s.
Proof. apply W_app. Qed.
Lemma mok_e e : Forall (ok false) (atoms (MExpr e)) <-> Forall (ok false) (atoms e).
Proof. reflexivity. Qed.
Lemma mW_e e : gW (MExpr e) = gW e. Proof. reflexivity. Qed.
Lemma need_swf s : needb s = true -> swfb s = true.
Proof. destruct s as [|[]]; auto; discriminate. Qed.
Lemma swf_top s : swfb s = true -> top_expr s = false -> needb s = true.
Proof. destruct s as [|[]]; auto; discriminate. Qed.
Lemma un_ok o s e : Forall (ok false) (atoms (MUn o s)) -> Forall (ok false) (atoms e) -> Forall (ok false) (atoms (EUnary o s e)).
Proof.
  intros H H'. autorewrite with at_ex. change (atoms (MUn o s)) with ([ALeaf (LUn o) s] ++ (atoms o ++ atoms s)) in H.
  apply Forall_app in H as [H1 H2]. apply ok_app; [exact H1|]. now apply ok_app.
Qed.
Lemma un_W o s e : gW (EUnary o s e) = gW (MUn o s) + gW e.
Proof. unfold gW. autorewrite with at_ex. change (atoms (MUn o s)) with ([ALeaf (LUn o) s] ++ (atoms o ++ atoms s)). rewrite !W_app. lia. Qed.
Lemma bin_ok o s l e : Forall (ok false) (atoms (MBin o s)) -> Forall (ok false) (atoms l) -> Forall (ok false) (atoms e) ->
  Forall (ok false) (atoms (EBinary o s l e)).
Proof.
  intros H H' H''. autorewrite with at_ex. change (atoms (MBin o s)) with ([ALeaf (LBin o) s] ++ (atoms o ++ atoms s)) in H.
  apply Forall_app in H as [H1 H2]. apply ok_app; [exact H1|]. apply ok_app; [|exact H'']. now apply ok_app.
Qed.
Lemma bin_W o s l e : gW (EBinary o s l e) = gW (MBin o s) + gW l + gW e.
Proof. unfold gW. autorewrite with at_ex. change (atoms (MBin o s)) with ([ALeaf (LBin o) s] ++ (atoms o ++ atoms s)). rewrite !W_app. lia. Qed.
Lemma gW_un o s : gW (MUn o s) = 0.
Proof. unfold gW. change (atoms (MUn o s)) with ([ALeaf (LUn o) s] ++ (@nil atom ++ atoms s)). now rewrite !W_app, W_leaf, W_span. Qed.
Lemma gW_bin o s : gW (MBin o s) = 0.
Proof. unfold gW. change (atoms (MBin o s)) with ([ALeaf (LBin o) s] ++ (@nil atom ++ atoms s)). now rewrite !W_app, W_leaf, W_span. Qed.

Lemma reduce_loop_ok prio n : forall e stk, length stk < n -> needb stk = true -> mok stk -> Forall (ok false) (atoms e) ->
  exists e' r, reduce_loop prio e stk = RedOk (MExpr e' :: r) /\ needb r = true /\ mok r /\ Forall (ok false) (atoms e') /\
    gW e' + mW r = gW e + mW stk.
Proof.
  induction n as [|n IH]; [intros; lia|]. intros e stk L Hn Hm He. destruct stk as [|[x|o s|o s] stk].
  - exists e, []. auto.
  - discriminate.
  - destruct stk as [|[lhs| |] stk]; try discriminate. cbn [reduce_loop]. apply mok_cons in Hm as [M1 M2].
    pose proof M2 as M2'. apply mok_cons in M2 as [M2 M3].
    destruct (N.ltb prio _).
    + exists e, (MBin o s :: MExpr lhs :: stk). repeat split; auto. now apply mok_cons.
    + destruct (IH (EBinary o s lhs e) stk) as (e' & r & H1 & H2 & H3 & H4 & H5); auto; [cbn in L; lia|now apply bin_ok|].
      exists e', r. repeat split; auto. rewrite H5, bin_W, !mW_cons, mW_e. lia.
  - cbn [reduce_loop]. apply mok_cons in Hm as [M1 M2]. destruct (N.ltb prio _).
    + exists e, (MUn o s :: stk). repeat split; auto. now apply mok_cons.
    + destruct (IH (EUnary o s e) stk) as (e' & r & H1 & H2 & H3 & H4 & H5); auto; [cbn in L; lia|now apply un_ok|].
      exists e', r. repeat split; auto. rewrite H5, un_W, !mW_cons. lia.
Qed.
Lemma reduce_ok prio stk : Forall (ok false) (atoms stk) ->
  (exists e' r, reduce prio stk = RedOk (MExpr e' :: r) /\ needb r = true /\ mok r /\ Forall (ok false) (atoms e') /\
    gW e' + mW r = gW stk) \/ (reduce prio stk = RedErr "Expected expression before here" /\ top_expr stk = false).
Proof.
  intros H. apply stk_inv in H as [Hm Hs]. destruct stk as [|[e|o s|o s] stk]; auto. left. cbn in Hs. apply mok_cons in Hm as [M1 M2].
  destruct (reduce_loop_ok prio (S (length stk)) e stk (Nat.lt_succ_diag_r _) Hs M2 M1) as (e' & r & H1 & H2 & H3 & H4 & H5).
  exists e', r. repeat split; auto. rewrite stk_W, mW_cons, mW_e. exact H5.
Qed.

(** Results of the shifts. *)
Lemma shift_expr_ok e stk : Forall (ok false) (atoms e) -> Forall (ok false) (atoms stk) ->
  Forall (ok false) (atoms (shift_expr e stk)) /\ gW (shift_expr e stk) <= gW e + gW stk.
Proof.
  intros He H. unfold shift_expr. destruct (top_expr stk) eqn:E; [split; [constructor|cbn; lia]|].
  apply stk_inv in H as [Hm Hs]. split.
  - apply stk_inv. split; [now apply mok_cons|]. cbn. now apply swf_top.
  - change (gW (RedOk (MExpr e :: stk))) with (@gW _ stack _ (MExpr e :: stk)). rewrite !stk_W, mW_cons, mW_e. lia.
Qed.
Lemma shift_unary_ok s o stk : wspan src s -> leaf_at (LUn o) s -> Forall (ok false) (atoms stk) ->
  Forall (ok false) (atoms (shift_unary s o stk)) /\ gW (shift_unary s o stk) <= gW stk.
Proof.
  intros He Hl H. unfold shift_unary. destruct (top_expr stk) eqn:E; [split; [constructor|cbn; lia]|].
  apply stk_inv in H as [Hm Hs]. split.
  - apply stk_inv. split; [apply mok_cons; split; [|exact Hm]|cbn; now apply swf_top].
    change (atoms (MUn o s)) with ([ALeaf (LUn o) s] ++ (@nil atom ++ atoms s)). apply ok_app; [now apply ok_leaf|now apply ok_span].
  - change (gW (RedOk (MUn o s :: stk))) with (@gW _ stack _ (MUn o s :: stk)). rewrite !stk_W, mW_cons.
    rewrite gW_un. lia.
Qed.
Lemma shift_binop_ok s o stk : wspan src s -> leaf_at (LBin o) s -> Forall (ok false) (atoms stk) ->
  Forall (ok false) (atoms (shift_binop s o stk)) /\ gW (shift_binop s o stk) <= gW stk.
Proof.
  intros Hs Hl H. unfold shift_binop. destruct (reduce_ok (bin_priority o) stk H) as [(e & r & -> & H2 & H3 & H4 & H5)|[-> _]].
  - split.
    + apply stk_inv. split; [|exact H2]. apply mok_cons. split; [|now apply mok_cons].
      change (atoms (MBin o s)) with ([ALeaf (LBin o) s] ++ (@nil atom ++ atoms s)). apply ok_app; [now apply ok_leaf|now apply ok_span].
    + change (gW (RedOk (MBin o s :: MExpr e :: r))) with (@gW _ stack _ (MBin o s :: MExpr e :: r)).
      rewrite !stk_W in *. rewrite !mW_cons, mW_e. rewrite gW_bin. lia.
  - split; [constructor|cbn; lia].
Qed.
(** [pop_lhs] *)
Lemma step_pop U stk msg (k : expr * stack -> prog U) Q E S : cx E S -> Forall (ok false) (atoms stk) ->
  (forall e r, needb r = true -> Forall (ok false) (atoms e) -> Forall (ok false) (atoms r) -> gW e + gW r = gW stk -> wp (k (e, r)) Q (fpost E) S) ->
  wp (bind (pop_lhs stk msg) k) Q (fpost E) S.
Proof.
  intros C H Hk. unfold pop_lhs. destruct (reduce_ok in_priority stk H) as [(e & r & -> & H2 & H3 & H4 & H5)|[-> _]].
  - apply Hk; auto; [|now rewrite stk_W]. apply stk_inv. split; [exact H3|now apply need_swf].
  - apply wp_bind. eapply wp_err_here; [eassumption|reflexivity].
Qed.
End Red.

(** ** The functions *)
Ltac leafs := first [ assumption | leaft | eapply leaf_of_tok; [eapply t_tok; eassumption|eassumption] ].
Ltac fin_shift :=
  norm;
  lazymatch goal with
  | |- post ?E ?b ?i ?d ?e ?g ?a ?S => apply post0; [assumption|mgoal| |]
  end;
  lazymatch goal with
  | |- _ <= _ => rewrite ?gW_some; shw; gwx; gwl
  | |- Forall (ok ?b) (@atoms (option rres) ?I (Some ?x)) => change (Forall (ok b) (@atoms rres Atoms_rres x)); sho
  | |- Forall (ok ?b) (@atoms rres ?I ?x) => sho
  end
with shw :=
  lazymatch goal with
  | |- context [gW (shift_expr ?e ?s)] => eapply Nat.le_trans; [apply Nat.add_le_mono_l, shift_expr_ok; okg|]
  | |- context [gW (shift_unary ?e ?o ?s)] => eapply Nat.le_trans; [apply Nat.add_le_mono_l, shift_unary_ok; [vsp|leafs|okg]|]
  | |- context [gW (shift_binop ?e ?o ?s)] => eapply Nat.le_trans; [apply Nat.add_le_mono_l, shift_binop_ok; [vsp|leafs|okg]|]
  end
with sho :=
  lazymatch goal with
  | |- context [shift_expr ?e ?s] => apply shift_expr_ok; okg
  | |- context [shift_unary ?e ?o ?s] => apply shift_unary_ok; [vsp|leafs|okg]
  | |- context [shift_binop ?e ?o ?s] => apply shift_binop_ok; [vsp|leafs|okg]
  end.
Ltac rgo := go; try fin_shift.

Section Fns.
Context {V : env}.
Variable r : recs.
Context {K : recs_ok r}.

Lemma parse_expression_outer_spec : spec false (r_n r - 1) 0 d0 d0 gW (parse_expression_outer r).
Proof. unfold parse_expression_outer. start. go. Qed.
Hint Resolve parse_expression_outer_spec : spec.
Lemma parse_expression_paren_spec : spec false (r_n r - 1) 0 d0 d0 gW (parse_expression_paren r).
Proof. unfold parse_expression_paren. start. go. Qed.
Hint Resolve parse_expression_paren_spec : spec.
(** A function together with the span of its name. *)
Definition Atoms_func (s : span) : Atoms func := fun f => [ALeaf (LFunc f) s].
Lemma ident_leaf (l : leaf) v k s : tok_at (TIdent v k) s -> (forall w, w = v \/ w = txt "`" ++ v ++ txt "`" -> leaf_value l w) -> leaf_at l s.
Proof.
  intros (_ & w & At & T) H. exists w. split; [exact At|]. left. apply H. cbn [tok_text] in T. destruct k; destruct T as [-> _]; auto.
Qed.
(** What may be called: every word that reaches [parse_function] has a name or is no reserved word. *)
Definition callable (t : tok) : Prop :=
  kw_assoc function_table t = None -> match t with TIdent _ k => kw_reserved k = false | _ => False end.
Lemma callable_word v k : kw_expr_ident k = true -> callable (TIdent v k).
Proof.
  intros H N. destruct (kw_reserved k) eqn:R; [exfalso|reflexivity]. destruct k as [| |s]; try discriminate R.
  cbn [kw_expr_ident] in H. rewrite R in H. rewrite orb_false_r in H. apply existsb_exists in H as (x & X1 & X2). apply String.eqb_eq in X2. subst x.
  assert (F : forallb (fun s => negb (kw_reserved (KW s)) || match kw_assoc function_table (TIdent [] (KW s)) with Some _ => true | None => false end) expr_ident_table = true) by (vm_compute; reflexivity).
  rewrite forallb_forall in F. apply F in X1. rewrite R in X1.
  assert (Y : forall tbl : list (string * string), kw_assoc tbl (TIdent [] (KW s)) = kw_assoc tbl (TIdent v (KW s))).
  { induction tbl as [|[k x] tbl IH]; cbn [kw_assoc]; [reflexivity|]. rewrite IH. reflexivity. }
  rewrite Y, N in X1. discriminate.
Qed.
Lemma callable_left t : is_kw t "LEFT" = true -> callable t.
Proof.
  intros H N. exfalso. destruct t; try discriminate H. destruct k as [| |s]; try discriminate H. cbn in H. apply String.eqb_eq in H. subst s.
  revert N. vm_compute. discriminate.
Qed.
Lemma function_of_spec N t s : tok_at t s -> callable t -> @spec _ _ (Atoms_func s) false N 0 d0 d0 (@gW _ _ (Atoms_func s)) (function_of t s).
Proof.
  intros Hs Hc. assert (Hv : wspan src s) by (destruct Hs as (_ & w & At & _); eapply wat_wspan; exact At).
  assert (W0 : forall f, @gW _ _ (Atoms_func s) f = 0) by (intros f; apply W_leaf).
  unfold function_of. start. destruct (kw_assoc function_table t) as [[k f]|] eqn:E.
  - apply wp_ret. apply post0; [assumption|mgoal|rewrite W0; lia|]. apply ok_leaf. eapply leaf_of_tok; [exact Hs|].
    eapply tok_leaf_word; [eapply kw_assoc_word; exact E|]. apply (kw_assoc_words _ (fun c => LFunc (FName c)) function_table _ k f E). vm_compute. reflexivity.
  - specialize (Hc E). destruct t; try contradiction. rewrite Hc. cbn [negb]. apply wp_ret.
    apply post0; [assumption|mgoal|rewrite W0; lia|]. apply ok_leaf. eapply ident_leaf; [exact Hs|]. auto.
Qed.
Lemma parse_function_spec t s : tok_at t s -> callable t -> spec false (r_n r) 0 d1 d0 gW (parse_function r t s).
Proof.
  intros Hs Hc. assert (Hv : wspan src s) by (destruct Hs as (_ & w & At & _); eapply wat_wspan; exact At).
  unfold parse_function. start. eapply step0; [sspec|eassumption|bnd|intro_step].
  eapply (step0 _ _ (Atoms_func s)); [apply (function_of_spec (r_n r) _ _ Hs Hc)|eassumption|bnd|].
  intros f S1 C1 M1 A1 O1. replace (@gW _ _ (Atoms_func s) f) with 0 in A1 by (symmetry; apply W_leaf).
  assert (HL : leaf_at (LFunc f) s) by now inversion O1. clear O1. go.
Qed.
Lemma parse_in_list_spec : spec false (r_n r) 0 d1 d0 gW (parse_in_list r).
Proof. unfold parse_in_list. start. go. Qed.
Hint Resolve parse_in_list_spec : spec.
Lemma step_in_spec stk : Forall (ok false) (atoms stk) -> spec false (r_n r) (gW stk) d1 d0 gW (step_in r stk).
Proof. intros Hs. unfold step_in. start. eapply step_pop; [eassumption..|intros]. rgo. Qed.
Lemma step_is_spec N stk : Forall (ok false) (atoms stk) -> spec false N (gW stk) d1 d0 gW (step_is stk).
Proof.
  intros Hs. unfold step_is. start. eapply step_pop; [eassumption..|intros]. eapply step_kw; [eassumption|]. intros S1 s1 C1 M1 A1 V1 G1.
  apply step_token. destruct (is_kw (tk S1) "NOT") eqn:E1.
  - apply bind_bind. eapply step_consume_seg; [exact C1|live|]. intros S2 s2 C2 M2 A2 V2 G2. apply bind_bind, step_token.
    destruct (kw_assoc is_not_kinds (tk S2)) as [[k i]|] eqn:E2; [|now apply wp_bind, wp_expected_failure].
    apply bind_bind. eapply step_consume_seg; [exact C2|live|]. intros S3 s3 C3 M3 A3 V3 G3.
    assert (HL : leaf_at (LIs i) (join s3 s1)).
    { eapply leaf_seg; [eapply seg_over; [exact G1|eapply tseg_seg; [exact G2|wordt]|eapply tseg_seg; [exact G3|wordt]]|].
      clear - E2. apply kw_assoc_in in E2. cbn in E2. repeat destruct E2 as [E2|E2]; try (injection E2 as <- <-; reflexivity). destruct E2. }
    apply wp_ret. fin_shift.
  - destruct (kw_assoc is_kinds (tk S1)) as [[k i]|] eqn:E2; [|now apply wp_bind, wp_expected_failure].
    apply bind_bind. eapply step_consume_seg; [exact C1|live|]. intros S3 s3 C3 M3 A3 V3 G3.
    assert (HL : leaf_at (LIs i) (join s3 s1)).
    { eapply leaf_seg; [eapply seg_joinr; [exact G1|eapply tseg_seg; [exact G3|wordt]|reflexivity]|].
      clear - E2. apply kw_assoc_in in E2. cbn in E2. repeat destruct E2 as [E2|E2]; try (injection E2 as <- <-; reflexivity). destruct E2. }
    apply wp_ret. fin_shift.
Qed.
Lemma step_not_spec stk : Forall (ok false) (atoms stk) -> spec false (r_n r) (gW stk) d1 d0 gW (step_not r stk).
Proof.
  intros Hs. unfold step_not. start. eapply step_pop; [eassumption..|intros e stk' Hn He Hr HW].
  assert (Hx : @Forall atom (ok false) (@atoms stack _ (MExpr e :: stk'))).
  { apply stk_inv. split; [|exact Hn]. apply mok_cons. split; [exact He|]. now apply stk_inv in Hr. }
  assert (Hy : @gW _ stack _ (MExpr e :: stk') = gW stk) by (rewrite stk_W, mW_cons, mW_e, <- HW, (stk_W stk'); reflexivity).
  eapply step_kw; [eassumption|]. intros S1 s1 C1 M1 A1 V1 G1. apply step_token. destr (is_kw (tk S1) "IN"); [rgo|].
  destr (is_kw (tk S1) "LIKE"); [|go]. eapply consume0; [eassumption|live|]. intros. apply wp_ret.
  apply post0; [assumption|mgoal| |].
  - eapply Nat.le_trans; [apply Nat.add_le_mono_l, shift_binop_ok; [vsp|leafs|exact Hx]|]. rewrite Hy. lia.
  - apply shift_binop_ok; [vsp|leafs|exact Hx].
Qed.
Lemma interval_parts_spec N s l : wspan src s -> spec false N 0 d0 d0 gW (interval_parts s l).
Proof.
  intros Hs. induction l as [|p l IH]; cbn [interval_parts]; start; [go|]. destr (parse_i64 p); go.
Qed.
Lemma consume_time_unit_spec N : spec false N 0 d1 d0 gW consume_time_unit.
Proof.
  unfold consume_time_unit, parse_time_unit. start. apply step_token.
  destruct (kw_assoc time_unit_table (tk S)) as [[k u]|] eqn:Et; cbn [option_map snd]; [|go].
  eapply step_consume_seg; [eassumption|live|]. intros S1 s C1 M1 A1 V1 G1. apply wp_ret. fin.
Qed.
Hint Resolve consume_time_unit_spec interval_parts_spec : spec.
Lemma step_interval_spec stk : Forall (ok false) (atoms stk) -> lspec false (r_n r) (gW stk) d1 d0 gW (step_interval r stk).
Proof. intros Hs. unfold step_interval. lstart. rgo. Qed.

Lemma shift_invalid s stk : wspan src s -> Forall (ok false) (atoms stk) ->
  Forall (ok false) (atoms (shift_expr (EInvalid (mkInvalid s)) stk)) /\ gW (shift_expr (EInvalid (mkInvalid s)) stk) <= winv + gW stk.
Proof.
  intros Hs H. destruct (shift_expr_ok (EInvalid (mkInvalid s)) stk) as [H1 H2]; [okg|exact H|]. split; [exact H1|].
  pose proof (invalid_w s). lia.
Qed.
Ltac fin_inv := norm; apply post0; [assumption|mgoal| |apply shift_invalid; [vsp|okg]];
  eapply Nat.le_trans; [apply Nat.add_le_mono_l, shift_invalid; [vsp|okg]|lia].
Lemma step_timestamp_spec c stk : (forall s u a b, atoms (c s u a b) = (((atoms s) ++ atoms u) ++ atoms a) ++ atoms b) ->
  Forall (ok false) (atoms stk) -> lspec false (r_n r) (gW stk) d1 d0 gW (step_timestamp r c stk).
Proof.
  intros Hc Hs. unfold step_timestamp. lstart. eapply consume0; [eassumption|live|]. intros.
  eapply step0; [sspec|eassumption|bnd|intro_step].
  eapply step0; [eapply (recovered_gopt _ _ false (r_n r))|eassumption|bnd|intro_step].
  - start. go.
  - eapply step0; [sspec|eassumption|bnd|intro_step]. apply wp_ret. destruct a0 as [[[u e1] e2]|]; norm; [|fin_inv].
    assert (Ox : Forall (ok false) (atoms (c s u e1 e2))) by (rewrite Hc; okg).
    assert (Wc : gW (c s u e1 e2) = gW u + gW e1 + gW e2) by (unfold gW; rewrite Hc, !W_app, W_span; lia).
    fin_shift.
Qed.
Lemma step_cast_spec stk : Forall (ok false) (atoms stk) -> spec false (r_n r) (gW stk) d1 d0 gW (step_cast r stk).
Proof.
  intros Hs. unfold step_cast. start. 
  eapply step0; [sspec|eassumption|bnd|intro_step].
  eapply step0; [sspec|eassumption|bnd|intro_step].
  eapply step0; [eapply (recovered_gopt _ _ false (r_n r - 1))|eassumption|bnd|intro_step].
  - start. go.
  - eapply step0; [sspec|eassumption|bnd|intro_step]. apply wp_ret. destruct a1 as [[[u e1] e2]|]; norm; [|fin_inv].
    fin_shift.
Qed.
Lemma step_extract_spec stk : Forall (ok false) (atoms stk) -> spec false (r_n r) (gW stk) d1 d0 gW (step_extract r stk).
Proof.
  intros Hs. unfold step_extract. start. 
  eapply step0; [sspec|eassumption|bnd|intro_step].
  eapply step0; [sspec|eassumption|bnd|intro_step].
  eapply step0; [eapply (recovered_gopt _ _ false (r_n r - 1))|eassumption|bnd|intro_step].
  - start. go.
  - eapply step0; [sspec|eassumption|bnd|intro_step]. apply wp_ret. destruct a1 as [[[u e1] e2]|]; norm; [|fin_inv].
    fin_shift.
Qed.
Lemma step_aggregate_spec k c stk : (forall s u a, atoms (c s u a) = ((atoms s) ++ atoms u) ++ atoms a) ->
  Forall (ok false) (atoms stk) -> spec false (r_n r) (gW stk) d1 d0 gW (step_aggregate r k c stk).
Proof.
  intros Hc Hs. unfold step_aggregate. start.
  eapply step0; [sspec|eassumption|bnd|intro_step].
  eapply step0; [sspec|eassumption|bnd|intro_step].
  eapply step0; [sspec|eassumption|bnd|intro_step].
  eapply step0; [eapply (recovered_gopt _ _ false (r_n r - 1))|eassumption|bnd|intro_step].
  - start. go.
  - eapply step0; [sspec|eassumption|bnd|intro_step]. apply wp_ret. destruct a2 as [e1|]; norm; [|fin_inv].
    assert (Ox : Forall (ok false) (atoms (c a a1 e1))) by (rewrite Hc; okg).
    assert (Wc : gW (c a a1 e1) = gW a1 + gW e1) by (unfold gW; rewrite Hc, !W_app, W_span; lia).
    fin_shift.
Qed.

(** Dotted names: the list of parts stays non-empty. *)
Definition Atoms_parts : Atoms (list idpart) := fun l => atoms (mkParts l).
Lemma parts_app b l x : Forall (ok b) (@atoms _ Atoms_parts l) -> Forall (ok b) (atoms x) -> Forall (ok b) (@atoms _ Atoms_parts (l ++ [x])).
Proof.
  intros H1 H2. destruct l as [|a l].
  - change (Forall (ok b) (atoms [x])). okg.
  - change (Forall (ok b) (atoms ((a :: l) ++ [x]))). apply okl_app; [exact H1|okg].
Qed.
Lemma idpart_W (p : idpart) : gW p = 0.
Proof. destruct p; [change (gW (PName i)) with (gW i); apply gW_ident|change (gW (PStar s)) with (gW s); apply gW_span]. Qed.
Lemma parts_W l : @gW _ _ Atoms_parts l = 0.
Proof.
  unfold gW. destruct l as [|a l].
  - cbn. now rewrite wt_empty.
  - change (gW (a :: l) = 0). generalize (a :: l). clear. induction l as [|a l IH]; [reflexivity|].
    rewrite gW_cons, IH, idpart_W. reflexivity.
Qed.
Lemma parse_id_parts_spec n f : Forall (ok false) (atoms f) ->
  @spec _ _ Atoms_parts false n 0 d0 d0 (@gW _ _ Atoms_parts) (parse_id_parts n f).
Proof.
  intros Hf. unfold parse_id_parts. rewrite <- (parts_W [f]).
  apply (loop0_spec (list idpart) (list idpart) Atoms_parts Atoms_parts false n); [|ntac|change (Forall (ok false) (atoms [f])); okg].
  intros l Hl. start. eapply step0; [sspec|eassumption|bnd|intro_step]. rewrite parts_W in *.
  destruct a; norm.
  - apply step_token. destr (tok_eqb (tk S0) TMul).
    + eapply step0; [sspec|eassumption|bnd|intro_step]. apply wp_ret. apply post0; [assumption|mgoal| |apply parts_app; [exact Hl|okg]].
      rewrite gW_inl, parts_W. lia.
    + destr (tk S0); try solve [go].
      eapply step0; [sspec|eassumption|bnd|intro_step]. apply wp_ret. apply post0; [assumption|mgoal| |apply parts_app; [exact Hl|okg]].
      rewrite gW_inl, parts_W. lia.
  - apply wp_ret. apply post0; [assumption|mgoal| |exact Hl]. rewrite gW_inr, parts_W. lia.
Qed.
Lemma step_word_spec t stk : Forall (ok false) (atoms stk) ->
  forall S, wf S -> m S < r_n r -> is_eof (tk S) = false -> callable (tk S) -> t = tk S ->
  wp (step_word r t stk) (post S false (gW stk) d1 d0 gW) (fpost S) S.
Proof.
  intros Hs. unfold step_word. lstart. intros Hc ->. eapply step_consume; [eassumption|]. intros S' C1 _ M1 A1 _.
  rewrite Hl in M1. cbn in M1. pose proof (wf_wspan _ Hw) as Hv. pose proof (w_tok _ _ Hw) as Ht.
  apply step_token. destr (tok_eqb (tk S') TLParen).
  - eapply step0; [apply (parse_function_spec _ _ Ht Hc)|eassumption|bnd|intro_step]. apply wp_ret. fin_shift.
  - destruct (kw_assoc bare_functions (tk S)) as [[k f]|] eqn:E; norm.
    + assert (HL : leaf_at (LFunc (FName f)) (sp S)).
      { eapply leaf_of_tok; [exact Ht|]. eapply tok_leaf_word; [eapply kw_assoc_word; exact E|].
        apply (kw_assoc_words _ (fun c => LFunc (FName c)) bare_functions _ k f E). vm_compute. reflexivity. }
      apply wp_ret. fin_shift.
    + eapply step0; [apply (token_to_plain_identifier_spec (r_n r) _ _ Ht)|eassumption|bnd|intro_step].
      eapply (step0 _ _ Atoms_parts); [apply (parse_id_parts_spec (r_n r))|eassumption|bnd|intro_step]; [okg|].
      assert (Oe : Forall (ok false) (atoms (EIdentifier (mkParts a0)))) by exact O0.
      assert (We : gW (EIdentifier (mkParts a0)) = 0) by apply (parts_W a0).
      revert Oe We. generalize (EIdentifier (mkParts a0)). intros e Oe We. apply wp_ret. fin_shift.
Qed.
Lemma parse_whens_spec : spec false (r_n r) 0 d0 eok gW (parse_whens r).
Proof.
  unfold parse_whens. start.
  eapply step_; [eapply loop_acc_spec with (b := false) (N := r_n r)|eassumption|bnd|]; [|ntac|constructor|].
  - intros l Hl. start. do 4 (eapply step0; [sspec|eassumption|bnd|intro_step]). apply step_token. apply wp_ret.
    split; [assumption|]. pose proof (c_nerr _ _ C4). unfold dctl, ectl. cbn [snd]. destruct (is_kw _ _); repeat split; try lia; try (gwx; gwl); okg.
  - intros [l o] S1 C1 _ M1 N1 A1 O1. unfold eok in N1. cbn [snd] in N1. norm. destruct o.
    + eapply step0; [sspec|eassumption|bnd|intro_step]. destruct a; norm.
      * apply wp_try. eapply wp_conseq; [apply (k_expr r false); [apply C0|bnd]| |].
        -- intros e S3 (C3 & M3 & N3 & A3 & O3). apply wp_ret. assert (C4 : cx S S3) by (eapply cx_trans; eauto).
           split; [assumption|]. pose proof (c_nerr _ _ C4). pose proof (c_nerr _ _ C3). norm. unfold d0, eok. cbn [snd]. repeat split; try lia; [gwx; gwl|okg].
        -- intros S3 [C3 L3]. apply wp_ret. assert (C4 : cx S S3) by (eapply cx_trans; eauto). split; [assumption|].
           pose proof (c_nerr _ _ C0). pose proof (cx_A _ _ C3). pose proof (c_m _ _ C4). unfold d0, eok. cbn [snd]. repeat split; try lia; [gwx; gwl|okg].
      * apply wp_ret. split; [assumption|]. pose proof (c_nerr _ _ C0). unfold d0, eok. cbn [snd]. repeat split; try lia; [gwx; gwl|okg].
    + apply wp_ret. split; [assumption|]. unfold d0, eok. cbn [snd]. repeat split; try lia; [gwx; gwl|okg].
Qed.
Hint Resolve parse_whens_spec : spec.
Lemma step_case_spec stk : Forall (ok false) (atoms stk) -> spec false (r_n r) (gW stk) d1 d0 gW (step_case r stk).
Proof.
  intros Hs. unfold step_case. start. 
  eapply step0; [sspec|eassumption|bnd|intro_step]. apply step_token.
  eapply (step0_inl _ _ _ false 0 d0 gW); [eassumption|intros; go|intro_step].
  eapply step0; [eapply recovered_acc_spec; sspec|eassumption|bnd|intro_step]. destruct a1; norm. rgo.
Qed.
Lemma step_variable_spec N stk : Forall (ok false) (atoms stk) -> spec false N (gW stk) d1 d0 gW (step_variable stk).
Proof.
  intros Hs. unfold step_variable. start. eapply step0; [sspec|eassumption|bnd|intro_step].
  eapply (step0_inl _ _ _ false 0 d0 gW); [eassumption|intros; go|intro_step].
  eapply step0; [sspec|eassumption|bnd|intro_step]. apply step_token.
  assert (G : forall v, tok_leaf (tk S2) (LVar v) -> is_eof (tk S2) = false ->
    wp (vs <- consume ;; Ret (shift_expr (EVariable a a0 (Some a1) v vs) stk)) (post S false (gW stk) d1 d0 gW) (fpost S) S2).
  { intros v Hv Hl. eapply step_consume_seg; [eassumption|exact Hl|]. intros S3 s3 C3 M3 A3 V3 G3.
    assert (HL : leaf_at (LVar v) s3) by leafs. apply wp_ret. fin_shift. }
  destruct (is_kw (tk S2) "TIME_ZONE") eqn:E1.
  - apply (G VTimeZone); [|live]. eapply tok_leaf_word; [wordt|reflexivity].
  - destruct (tk S2) eqn:E2; try (now apply wp_bind, wp_expected_failure). apply (G (VOther t)); [|reflexivity].
    intros w T. left. cbn [tok_text] in T. destruct k; destruct T as [-> _]; cbn [leaf_value]; auto.
Qed.

(** *** Positional arguments *)
(** [cx] without well-formedness of the later state. *)
Definition cxr (E S : gst) : Prop :=
  m S <= m E /\ nerr E <= nerr S /\ s_delim (g_st S) = s_delim (g_st E) /\ (exists l, g_log S = g_log E ++ l) /\ fst (sp E) <= fst (sp S) /\
  (s_permit (g_st S) = s_permit (g_st E) \/ (has_word src "TRIGGER" /\ nerr E < nerr S)).
Lemma cxr_cx E S : cxr E S -> wf S -> cx E S.
Proof. intros (H1 & H2 & H3 & H4 & H5 & H6) Hw. constructor; auto. Qed.
Lemma cx_cxr E S : cx E S -> cxr E S.
Proof. intros []. repeat split; auto. Qed.
Lemma cxr_trans a b c : cxr a b -> cxr b c -> cxr a c.
Proof.
  intros (H1 & H2 & H3 & [l H4] & H5 & H6) (G1 & G2 & G3 & [l' G4] & G5 & G6). repeat split; try lia; [congruence| |].
  - exists (l ++ l'). now rewrite G4, H4, app_assoc.
  - destruct H6 as [H6|[H6 H7]]; [|right; split; [exact H6|lia]]. destruct G6 as [G6|[G6 G7]]; [|right; split; [exact G6|lia]]. left. congruence.
Qed.
Lemma step_oarg U w (k : N -> prog U) Q F S : wf S -> wat_span src (sp S) w -> placeholder opts w ->
  (forall n S1, wfx true S1 -> tk S1 = tk S -> sp S1 = sp S -> cxr S S1 -> AA S + wt (AArg n (sp S)) <= AA S1 -> wp (k n) Q F S1) ->
  wp (bind (perf OArg) k) Q F S.
Proof.
  intros Hw Ha Hp H. apply wp_op; cbn [exec]; try discriminate. intros x st' X. injection X as <- <-.
  destruct S as [st log]. cbn [g_st g_log] in *. apply H; try reflexivity.
  - destruct Hw as [w1 w2 w3 w4 w5 w6 w7 w8 w9 w10 w11]. constructor; auto.
    + cbn in *. rewrite w8, app_length. cbn. lia.
    + destruct w9 as (p & L1 & L2). exists (snd (sp (mkG st log))). split; [|reflexivity].
      cbn. eapply lk_snoc; eauto; apply Ha.
  - unfold cxr. cbn. repeat split; auto. eexists. reflexivity.
  - unfold AA, nerr. cbn. now apply cr_arg.
Qed.
Lemma late_consume U (k : span -> prog U) Q F S : wfx true S -> is_eof (tk S) = false ->
  (forall S2, cx S S2 -> m S2 + 1 <= m S -> wp (k (sp S)) Q F S2) -> wp (bind consume k) Q F S.
Proof.
  intros Hw He H. unfold consume. change (bind (bind cur_span _) k) with (bind cur_span (fun s => bind next (fun _ => k s))).
  apply step_span. pose proof (next_ok _ Hw) as Nx. rewrite He in Nx. apply wp_op; cbn [exec].
  - intros x st' E1. rewrite E1 in Nx. apply wp_compat. intros Kc. destruct (Nx Kc) as (N1 & N2 & _). destruct x. apply H; auto.
  - intros w E1. now rewrite E1 in Nx.
  - now destruct (p_next (g_st S)).
Qed.
Lemma late_caps U v s (k : unit -> prog U) Q F S : wfx true S -> keyword_at v s ->
  (forall S2, wfx true S2 -> cxr S S2 -> tk S2 = tk S -> sp S2 = sp S -> wp (k tt) Q F S2) ->
  wp (bind (perf (OLintCaps v s)) k) Q F S.
Proof.
  intros Hw Hs H. destruct S as [st log]. apply wp_op; cbn [exec g_st].
  - intros x st' E1. destruct (_ && _) eqn:L; [|injection E1 as <- <-; apply H; auto; unfold cxr; repeat split; auto; exists []; now rewrite app_nil_r].
    unfold p_issue in E1. pose proof (w_isrc _ _ Hw) as Hi. cbn in Hi. rewrite Hi in E1. pose proof (keyword_vspan _ _ Hs) as Hv. apply vspan_slice in Hv as [w Hv]. rewrite Hv in E1. cbn in E1.
    injection E1 as <- <-. apply H; try reflexivity.
    + apply andb_true_iff in L as [L1 L2]. apply negb_true_iff in L1. pose proof (w_opts _ _ Hw) as Ho. cbn in Ho. rewrite Ho in L2.
      destruct Hw as [w1 w2 w3 w4 w5 w6 w7 w8 w9 w10 w11]. constructor; auto. cbn. apply Forall_app. split; [exact w10|]. constructor; [|constructor].
      right. right. left. exists v. cbn. repeat split; auto; apply Hs.
    + unfold cxr. cbn. repeat split; auto; [|exists []; now rewrite app_nil_r].
      unfold nerr, nerrs. cbn. rewrite filter_app, app_length. lia.
  - intros w E1. destruct (_ && _); [|discriminate]. unfold p_issue in E1. pose proof (w_isrc _ _ Hw) as Hi. cbn in Hi. rewrite Hi in E1.
    apply keyword_vspan, vspan_slice in Hs as [w' Hs]. rewrite Hs in E1. discriminate.
  - destruct (_ && _); [|discriminate]. unfold p_issue. destruct (slice _ _); [|discriminate]. cbn. discriminate.
Qed.
Lemma step_arg_wp c p w stk S : (forall n s, atoms (c (mkArg n s)) = [AArg n s; ASpan s]) -> Forall (ok false) (atoms stk) ->
  wf S -> wat_span src (sp S) w -> placeholder opts w ->
  (forall U (k : span -> prog U) Q F S1, wfx true S1 -> tk S1 = tk S -> sp S1 = sp S ->
     (forall S2, cx S1 S2 -> m S2 + 1 <= m S1 -> wp (k (sp S)) Q F S2) -> wp (bind p k) Q F S1) ->
  wp (step_arg c p stk) (post S false (gW stk) d1 d0 gW) (fpost S) S.
Proof.
  intros Hc Hs Hw Ha Hpl Hp. unfold step_arg. eapply step_oarg; eauto. intros n S1 W1 T1 P1 R1 A1.
  apply Hp; auto. intros S2 C2 M2. apply wp_ret.
  assert (CC : cx S S2) by (apply cxr_cx; [eapply cxr_trans; [exact R1|now apply cx_cxr]|apply C2]).
  assert (Oe : Forall (ok false) (atoms (c (mkArg n (sp S))))).
  { rewrite Hc. constructor; [|constructor; [now apply wf_wspan|constructor]]. exists w. split; [exact Ha|now left]. }
  assert (We : gW (c (mkArg n (sp S))) = wt (AArg n (sp S))) by (unfold gW; rewrite Hc; cbn; rewrite wt_span; lia).
  pose proof (cx_A _ _ C2). destruct R1 as (M1 & _). apply post0; [assumption|mgoal| |apply shift_expr_ok; assumption].
  eapply Nat.le_trans; [apply Nat.add_le_mono_l, shift_expr_ok; assumption|]. rewrite We. lia.
Qed.
Lemma tok_eqb_sym_true t w : tok_eqb t w = true -> t = w.
Proof. apply tok_eqb_eq. Qed.
Lemma step_arg_token stk S w : (w = TQuestionMark /\ o_arguments opts = ArgQuestionMark \/ w = TPercentS /\ o_arguments opts = ArgPercent) ->
  Forall (ok false) (atoms stk) -> wf S -> tok_eqb (tk S) w = true ->
  wp (step_arg EArg (consume_token w) stk) (post S false (gW stk) d1 d0 gW) (fpost S) S.
Proof.
  intros Hx Hs Hw He. pose proof (w_tok _ _ Hw) as (_ & x & T1 & T2). assert (Et : tk S = w) by now apply tok_eqb_eq.
  eapply step_arg_wp with (w := x); auto.
  - rewrite Et in T2. destruct Hx as [[-> Ho]|[-> Ho]]; cbn in T2; unfold placeholder; auto.
  - intros U k Q F S1 W1 Tk1 P1 H. unfold consume_token. apply bind_bind. apply step_token. rewrite Tk1, He. rewrite <- P1 in H.
    apply late_consume; auto. rewrite Tk1, Et. destruct Hx as [[-> _]|[-> _]]; reflexivity.
Qed.
Lemma step_arg_list stk S : o_list_hack opts = true ->
  Forall (ok false) (atoms stk) -> wf S -> is_kw (tk S) "_LIST_" = true ->
  wp (step_arg EListHack (consume_keyword "_LIST_") stk) (post S false (gW stk) d1 d0 gW) (fpost S) S.
Proof.
  intros Hx Hs Hw He. pose proof (w_tok _ _ Hw) as (_ & x & T1 & T2). apply is_kw_inv in He as [v He].
  eapply step_arg_wp with (w := x); auto.
  - right. right. split; [exact Hx|]. rewrite He in T2. cbn in T2. destruct T2 as (-> & _ & E).
    destruct (kw_of_text_cases (upper v)) as [E1|(s & E1 & _ & E2)]; rewrite E1 in E; [discriminate|]. injection E as <-. now symmetry.
  - intros U k Q F S1 W1 Tk1 P1 H. unfold consume_keyword. apply bind_bind. apply step_token. rewrite Tk1, He. cbn [kw_eqb].
    change ("_LIST_" =? "_LIST_")%string with true. cbn iota. apply bind_bind, step_span, bind_bind. rewrite P1.
    apply late_caps; [exact W1|eapply wf_keyword; [exact Hw|exact He|exists "_LIST_"; reflexivity]|]. intros S2 W2 R2 T2' P2. 
    rewrite <- P1, <- P2 in H. apply late_consume; auto; [now rewrite T2', Tk1, He|]. intros S3 C3 M3. apply H.
    + apply cxr_cx; [eapply cxr_trans; [exact R2|now apply cx_cxr]|apply C3].
    + destruct R2 as (R2 & _). lia.
Qed.

Lemma some_wp T (I : Atoms T) (p : prog T) i S :
  wp p (post S false i d1 d0 gW) (fpost S) S -> wp (some_ p) (post S false i dopt d0 gW) (fpost S) S.
Proof.
  intros H. unfold some_. apply wp_bind. eapply wp_conseq; [exact H| |auto].
  intros a S' (H1 & H2 & H3 & H4 & H5). apply wp_ret. split; [exact H1|]. cbn [dopt]. rewrite gW_some. auto.
Qed.
Definition espec (t : tok) (stk : stack) (p : prog (option rres)) : Prop :=
  forall S, wf S -> m S < r_n r -> t = tk S -> wp p (post S false (gW stk) dopt d0 gW) (fpost S) S.
Lemma espec_spec t stk (p : prog rres) : spec false (r_n r) (gW stk) d1 d0 gW p -> espec t stk (some_ p).
Proof. intros H S Hw Hm _. apply some_wp. now apply H. Qed.
Lemma espec_lspec t stk (p : prog rres) : lspec false (r_n r) (gW stk) d1 d0 gW p -> is_eof t = false -> espec t stk (some_ p).
Proof. intros H Ht S Hw Hm ->. apply some_wp. now apply H. Qed.
Lemma bin_espec t o stk : is_eof t = false -> tok_leaf t (LBin o) -> Forall (ok false) (atoms stk) -> espec t stk (bin o stk).
Proof.
  intros Ht Hl Hs S Hw Hm ->. pose proof (cx_refl _ Hw) as C. unfold bin. eapply step_consume_seg; [eassumption|exact Ht|].
  intros S1 s C1 M1 A1 V1 G1. assert (HL : leaf_at (LBin o) s) by leafs. apply wp_ret. fin_shift.
Qed.
Lemma un_espec t o stk : is_eof t = false -> tok_leaf t (LUn o) -> Forall (ok false) (atoms stk) -> espec t stk (un o stk).
Proof.
  intros Ht Hl Hs S Hw Hm ->. pose proof (cx_refl _ Hw) as C. unfold un. eapply step_consume_seg; [eassumption|exact Ht|].
  intros S1 s C1 M1 A1 V1 G1. assert (HL : leaf_at (LUn o) s) by leafs. apply wp_ret. fin_shift.
Qed.
Lemma if_espec (b : bool) t stk p q : (b = true -> espec t stk p) -> espec t stk q -> espec t stk (if b then p else q).
Proof. destruct b; auto. Qed.
Ltac lv := match goal with
  | H : (_ && _)%bool = true |- is_eof _ = false => apply andb_true_iff in H as [H _]; lv
  | H : (_ || _)%bool = true |- is_eof _ = false => apply orb_true_iff in H as [H|H]; lv
  | H : is_kw _ _ = true |- is_eof _ = false => exact (is_kw_live _ _ H)
  | H : tok_eqb _ _ = true |- is_eof _ = false => exact (tok_eqb_live _ _ H eq_refl)
  end.
(** Tokens of operators. *)
Ltac tl := match goal with
  | H : (_ && _)%bool = true |- _ => apply andb_true_iff in H as [H _]; tl
  | H : (_ || _)%bool = true |- _ => apply orb_true_iff in H as [H|H]; tl
  | H : is_kw _ _ = true |- tok_leaf _ _ => eapply tok_leaf_word; [exact (kw_tok_word _ _ H)|reflexivity]
  | H : tok_eqb _ _ = true |- tok_leaf _ _ => apply tok_eqb_eq in H as ->; intros w T; cbn [tok_text] in T; right;
      repeat destruct T as [T|T]; subst w; (match goal with |- exists ks, _ /\ phrase ks (txt ?k) => exists [k] end); (split; [reflexivity|now apply ph_one])
  end.
Lemma step_tail_spec t stk : Forall (ok false) (atoms stk) -> espec t stk (step_tail r t stk).
Proof.
  intros Hs S Hw Hm Et. pose proof (cx_refl _ Hw) as C. unfold step_tail. eapply step_arguments; [eassumption|].
  revert S Hw Hm Et C. assert (G : forall S, wf S -> m S < r_n r -> t = tk S -> cx S S -> True) by auto. clear G.
  destruct (match t with TIdent _ k => kw_expr_ident k | _ => false end) eqn:E1.
  { intros. apply some_wp, step_word_spec; auto; subst t; destruct (tk S); try discriminate; [reflexivity|now apply callable_word]. }
  destruct (tok_eqb t TQuestionMark && _) eqn:E2.
  { intros. apply andb_true_iff in E2 as [E2 E3]. subst t. apply some_wp, step_arg_token; auto. left. split; auto. now destruct (o_arguments opts). }
  destruct (tok_eqb t TPercentS && _) eqn:E3.
  { intros. apply andb_true_iff in E3 as [E3 E4]. subst t. apply some_wp, step_arg_token; auto. right. split; auto. now destruct (o_arguments opts). }
  match goal with |- forall S, wf S -> _ -> _ -> _ -> wp (match t with TComma => ?rest | _ => _ end) _ _ _ =>
    assert (G : espec t stk rest) end.
  { apply if_espec; [intros E4|apply if_espec; [intros E4|apply if_espec; [intros E4|apply if_espec; [intros E4|]]]].
    - intros S Hw Hm _. pose proof (cx_refl _ Hw) as C. rgo.
    - intros S Hw Hm _. pose proof (cx_refl _ Hw) as C. rgo.
    - apply espec_spec, step_case_spec, Hs.
    - apply espec_spec, step_variable_spec, Hs.
    - intros S Hw Hm _. pose proof (cx_refl _ Hw) as C. rgo. }
  intros S Hw Hm Et C. destruct t; try (apply G; assumption). destruct (o_arguments opts) eqn:Eo; try (apply G; assumption).
  pose proof (w_tok _ _ Hw) as (_ & w & T1 & T2). rewrite <- Et in T2. cbn [tok_text] in T2. destruct T2 as (d & ds & -> & B1 & B2 & B3 & B4).
  eapply step_consume; [eassumption|]. intros S' C' _ M' A' _. rewrite <- Et in M'. cbn in M'. apply wp_ret.
  assert (Oe : Forall (ok false) (atoms (EArg (mkArg (n - 1) (sp S))))).
  { constructor; [|constructor; [now apply wf_wspan|constructor]]. exists (txt "$" ++ d :: ds). split; [exact T1|]. right. split; [exact Eo|].
    exists d, ds. split; [reflexivity|]. split; [exact B1|]. split; [exact B2|]. rewrite B3. destruct n as [|p]; [|cbn [arg_no]; lia]. exfalso.
    assert (X : forall l v, (v <= fold_left (fun v c => v * 10 + (c - 48)) l v)%N).
    { clear. induction l as [|c l IH]; intros v; cbn [fold_left]; [lia|]. etransitivity; [|apply IH]. lia. }
    unfold dec_value in B3. cbn [fold_left] in B3. pose proof (X ds (0 * 10 + (d - 48))%N). lia. }
  assert (We : gW (EArg (mkArg (n - 1) (sp S))) = 0).
  { unfold gW. cbn. rewrite wt_span. erewrite wt_dollar; [reflexivity|exact (proj1 T1)]. }
  revert Oe We. generalize (EArg (mkArg (n - 1) (sp S))). intros e Oe We. fin_shift.
Qed.
Lemma step_primary_spec t stk : Forall (ok false) (atoms stk) -> espec t stk (step_primary r t stk).
Proof.
  intros Hs S Hw Hm Et. unfold step_primary. eapply step_listhack; [apply (cx_refl _ Hw)|]. revert S Hw Hm Et.
  match goal with |- forall S, _ -> _ -> _ -> wp ?q _ _ S => change (espec t stk q) end.
  apply if_espec; [intros E1; intros S Hw Hm _; pose proof (cx_refl _ Hw) as C; rgo|].
  apply if_espec; [intros E1; intros S Hw Hm _; pose proof (cx_refl _ Hw) as C; rgo|].
  apply if_espec; [intros E1; intros S Hw Hm _; pose proof (cx_refl _ Hw) as C; rgo|].
  apply if_espec. { intros E1 S Hw Hm ->. apply andb_true_iff in E1 as [E1 E2]. apply some_wp. now apply step_arg_list. }
  match goal with |- espec _ _ (match t with TComma => ?rest | _ => _ end) => assert (G : espec t stk rest) end.
  { apply if_espec; [intros _; apply espec_spec, step_cast_spec, Hs|].
    apply if_espec; [intros _; apply espec_spec, step_aggregate_spec; [reflexivity|exact Hs]|].
    apply if_espec; [intros _; apply espec_spec, step_aggregate_spec; [reflexivity|exact Hs]|].
    apply if_espec; [intros _; apply espec_spec, step_extract_spec, Hs|].
    apply if_espec; [|now apply step_tail_spec].
    intros E1 S Hw Hm Et. pose proof (cx_refl _ Hw) as C. eapply step_peek; [eassumption|]. intros x S' C1 _ T1 P1 M1 A1. destruct (tok_eqb x TLParen).
    - eapply step_consume_seg; [eassumption|rewrite T1, <- Et; lv|]. intros S2 s C2 M2 A2 H2 G2. pose proof (t_tok _ _ _ G2) as Ht. rewrite T1, <- Et in Ht.
      eapply step0; [apply (parse_function_spec _ _ Ht (callable_left _ E1))|eassumption|bnd|intro_step]. apply wp_ret. fin_shift.
    - eapply wp_conseq; [apply (step_tail_spec t stk Hs S'); [apply C1|lia|congruence]| |].
      + intros a S2 (G1 & G2 & G3 & G4 & G5). split; [eapply cx_trans; eauto|]. pose proof (c_nerr _ _ C1). repeat split; auto; lia.
      + intros S2. now apply fpost_trans. }
  destruct t; try exact G.
  - intros S Hw Hm Et; pose proof (cx_refl _ Hw) as C. unfold consume_float. apply bind_bind, step_token. rewrite <- Et.
    apply bind_bind. eapply step_consume_seg; [eassumption|now rewrite <- Et|]. intros S1 s C1 M1 A1 V1 G1.
    assert (HL : leaf_at (LFloat t) s).
    { eapply leaf_of_tok; [eapply t_tok; exact G1|]. rewrite <- Et. intros w T. left. exact T. }
    assert (Oe : Forall (ok false) (atoms (EFloat (t, s)))).
    { autorewrite with at_ex. apply ok_app; [apply ok_leaf, HL|okg]. }
    assert (We : gW (EFloat (t, s)) = 0).
    { unfold gW. autorewrite with at_ex. rewrite W_app, W_leaf. apply W_span. }
    revert Oe We. generalize (EFloat (t, s)). intros e Oe We. apply wp_ret. fin_shift.
  - intros S Hw Hm _; pose proof (cx_refl _ Hw) as C; rgo.
  - intros S Hw Hm _; pose proof (cx_refl _ Hw) as C; rgo.
  - intros S Hw Hm _; pose proof (cx_refl _ Hw) as C; rgo.
Qed.
Lemma star_espec t stk : Forall (ok false) (atoms stk) ->
  espec t stk (s <- consume_token TMul ;; Ret (Some (shift_expr (EIdentifier (mkParts [PStar s])) stk))).
Proof.
  intros Hs S Hw Hm _. pose proof (cx_refl _ Hw) as C. eapply step0; [sspec|eassumption|bnd|intro_step].
  assert (Oe : Forall (ok false) (atoms (EIdentifier (mkParts [PStar a])))) by (change (Forall (ok false) (atoms [PStar a])); okg).
  assert (We : gW (EIdentifier (mkParts [PStar a])) = 0) by apply (parts_W [PStar a]).
  revert Oe We. generalize (EIdentifier (mkParts [PStar a])). intros e Oe We. apply wp_ret. fin_shift.
Qed.
Lemma expr_step_spec inner stk : Forall (ok false) (atoms stk) -> spec false (r_n r) (gW stk) dopt d0 gW (expr_step r inner stk).
Proof.
  intros Hs S Hw Hm. unfold expr_step. apply step_token. cbv zeta.
  match goal with |- wp ?p _ _ _ => cut (espec (tk S) stk p) end; [intros H; now apply H|].
  repeat (apply if_espec; [intros E1; first
    [ apply bin_espec; [lv|tl|exact Hs]
    | apply un_espec; [lv|tl|exact Hs]
    | apply espec_spec, step_in_spec, Hs
    | apply espec_spec, step_is_spec, Hs
    | apply espec_spec, step_not_spec, Hs
    | apply espec_lspec; [apply step_interval_spec, Hs|lv]
    | apply espec_lspec; [apply step_timestamp_spec; [reflexivity|exact Hs]|lv]
    | apply star_espec, Hs ] |]).
  now apply step_primary_spec.
Qed.
Lemma parse_expression_spec inner : spec false (r_n r) 0 d0 d0 gW (parse_expression r inner).
Proof.
  start. unfold parse_expression.
  eapply (step0 _ _ Atoms_stack false (r_n r)); [|eassumption|bnd|].
  - change 0 with (@gW V stack _ []). apply (loop0_spec stack stack Atoms_stack Atoms_stack false (r_n r)); [|ntac|constructor].
    intros stk Hk. start. eapply step0; [apply expr_step_spec, Hk|eassumption|bnd|intro_step].
    destruct a as [[s|msg]|]; norm.
    + apply wp_ret. apply post0; [assumption|mgoal|exact A|exact O].
    + eapply wp_err_here; [eassumption|]. change (Forall (ok false) (bad (plain_any (txt msg)))) in O. now apply plain_any_plain, bad_ok in O || (apply bad_ok in O; now apply plain_any_plain).
    + apply wp_ret. apply post0; [assumption|mgoal|rewrite gW_inr; pose proof (cx_A _ _ C1); lia|exact Hk].
  - intros stk S1 C1 M1 A1 O1. destruct (reduce_ok 99999%N stk O1) as [(e & q & E1 & H2 & H3 & H4 & H5)|[E1 _]].
    + assert (Hq : q = []).
      { clear - E1. unfold reduce in E1. destruct stk as [|[e0| |] stk]; try discriminate.
        assert (G : forall n stk e, length stk < n -> forall e' q, reduce_loop 99999 e stk = RedOk (MExpr e' :: q) -> q = []).
        { clear. induction n as [|n IH]; [intros; lia|]. intros stk e L e' q. destruct stk as [|[x|o s|o s] stk]; cbn [reduce_loop].
          - now injection 1.
          - discriminate.
          - replace (99999 <? bin_priority o)%N with false by now destruct o. destruct stk as [|[l| |] stk]; try discriminate.
            apply IH. cbn in L. lia.
          - replace (99999 <? un_priority o)%N with false by now destruct o. apply IH. cbn in L. lia. }
        eapply G; [apply Nat.lt_succ_diag_r|exact E1]. }
      subst q. rewrite E1. apply wp_ret. apply post0; [assumption|mgoal| |exact H4]. change (mW []) with 0 in H5. change (@gW V stack Atoms_stack []) with 0 in A1. lia.
    + rewrite E1. eapply wp_err_here; [eassumption|reflexivity].
Qed.
End Fns.
#[export] Hint Resolve parse_expression_outer_spec parse_expression_paren_spec parse_expression_spec : spec.
