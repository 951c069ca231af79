(** C09, C10: expressions. *)
From Verif Require Export ExprRead Api.
Local Open Scope string_scope.
Local Open Scope list_scope.

Lemma shift_top i stk stk' : shift_item i stk = RedOk stk' -> top_expr stk' = closes i.
Proof.
  destruct i as [e|o s|o s|p]; cbn [shift_item closes].
  - unfold shift_expr. destruct (top_expr stk); [discriminate|]. now intros [= <-].
  - unfold shift_binop. destruct (reduce _ stk); [|discriminate]. now intros [= <-].
  - unfold shift_unary. destruct (top_expr stk); [discriminate|]. now intros [= <-].
  - unfold shift_post. destruct (reduce _ stk) as [[|[e| |] s]|]; try discriminate. unfold shift_expr. destruct (top_expr s); [discriminate|]. now intros [= <-].
Qed.
Section Loop.
Variables (r : recs) (inner : bool).
Let body := (fun stk : stack =>
           x <- expr_step r inner stk ;;
           match x with
           | None => Ret (inr stk)
           | Some (RedErr m) => err_here m
           | Some (RedOk stk) => Ret (inl stk)
           end).
Lemma loop_sound : forall n stk st s st', run (loop n body stk) st = ROk s st' ->
  exists l, reads r inner (top_expr stk) st l st' /\ feed l stk = RedOk s.
Proof.
  induction n as [|n IH]; intros stk st s st' H; [discriminate|]. cbn [loop] in H. unfold body at 1 in H. rewrite !run_bind in H.
  destruct (expr_step_read r inner stk st) as [E|[E _]].
  - rewrite E in H. destruct (run (read_item r inner (top_expr stk)) st) as [[i|] st1| | |] eqn:R; cbn [rmap shifts option_map] in H; try discriminate.
    + destruct (shift_item i stk) as [stk1|m] eqn:Sh.
      * cbn [run] in H. apply IH in H as (l & L & F). rewrite (shift_top _ _ _ Sh) in L. exists (i :: l). split; [|cbn; now rewrite Sh].
        eapply rd_item; eauto.
      * destruct (run (err_here m) st1) eqn:EE; try discriminate. now apply err_here_ok in EE.
    + cbn [run] in H. injection H as <- <-. exists []. split; [now constructor|reflexivity].
  - destruct (run (expr_step r inner stk) st) as [x st1| | |] eqn:X; try discriminate. now destruct (E x st1).
Qed.
Lemma loop_complete : forall l n stk st st' s, reads r inner (top_expr stk) st l st' -> feed l stk = RedOk s -> length l < n ->
  run (loop n body stk) st = ROk s st'.
Proof.
  induction l as [|i l IH]; intros n stk st st' s R F L; (destruct n as [|n]; [cbn in L; lia|]); cbn [loop]; unfold body at 1; rewrite !run_bind.
  - inversion R; subst. match goal with H : run (read_item _ _ _) _ = _ |- _ => rename H into RI end.
    destruct (expr_step_read r inner stk st) as [E|[_ E]].
    + rewrite E, RI. cbn [rmap shifts option_map run]. cbn [feed] in F. now injection F as ->.
    + destruct (E _ _ RI) as (i & m & X & _). discriminate.
  - inversion R as [|top st0 i0 st1 l0 st0' RI RR]; subst. cbn [feed] in F. destruct (shift_item i stk) as [stk1|m] eqn:Sh; [|discriminate].
    destruct (expr_step_read r inner stk st) as [E|[_ E]].
    + rewrite E, RI. cbn [rmap shifts option_map run]. rewrite Sh. cbn [run]. apply IH; [|exact F|cbn in L; lia].
      now rewrite (shift_top _ _ _ Sh).
    + destruct (E _ _ RI) as (i' & m & X & Y). injection X as <-. congruence.
Qed.
End Loop.

(** C09: whatever the parser of expressions returns is the tree, grouped by precedence and to the
    left, of the chain of operands and operators that it has read. *)
Theorem C09_result_is_grouped r inner st e st' : run (parse_expression r inner) st = ROk e st' ->
  exists t, to_expr t = e /\ grouped t /\ reads r inner false st (frontier t) st'.
Proof.
  unfold parse_expression. rewrite run_bind. intros H.
  match type of H with match ?x with _ => _ end = _ => destruct x as [s st1| | |] eqn:E; try discriminate end.
  apply loop_sound in E as (l & L & F). cbn [top_expr] in L.
  destruct (reduce 99999 s) as [s'|m] eqn:R; [|now apply err_here_ok in H].
  destruct (machine_sound _ _ _ F R) as (t & G & Fr & ->). cbn [run] in H. injection H as <- <-. exists t. now rewrite Fr.
Qed.
(** C09: if a chain can be read and is the chain of a grouped tree then that tree is returned. *)
Theorem C09_grouped_is_result r inner st t st' : grouped t -> reads r inner false st (frontier t) st' ->
  length (frontier t) < r_n r -> run (parse_expression r inner) st = ROk (to_expr t) st'.
Proof.
  intros G R L. destruct (machine_complete t G) as (s & F & E). unfold parse_expression. rewrite run_bind.
  rewrite (loop_complete r inner (frontier t) (r_n r) [] st st' s R F L). now rewrite E.
Qed.
(** C09: a chain has at most one grouped tree. *)
Theorem C09_grouping_unique t t' : grouped t -> grouped t' -> frontier t = frontier t' -> t = t'.
Proof. apply grouped_unique. Qed.

Ltac grouped_tac :=
  cbn; repeat match goal with
       | |- _ /\ _ => split
       | |- True => exact I
       | |- all_le _ _ => unfold all_le
       | |- all_lt _ _ => unfold all_lt
       | |- Forall _ [] => apply Forall_nil
       | |- Forall _ (_ :: _) => apply Forall_cons
       | |- _ => unfold postfix_priority; lia
       end.
(** A chain with prefix, binary and postfix operators, read from a source. *)
Example C09_applies : exists st l st' t,
  parser_new (txt "-a*b+c IS NULL AND NOT d = 1") [] [] default_options = XOk st st /\
  reads (knot 20) false false st l st' /\ l = frontier t /\ grouped t /\ length l = 12 /\
  run (parse_expression (knot 20) false) st = ROk (to_expr t) st'.
Proof.
  eexists _, _, _, _. split; [vm_compute; reflexivity|]. split.
  { repeat (eapply rd_item; [vm_compute; reflexivity|cbn [closes]]). apply rd_end. vm_compute. reflexivity. }
  split.
  { instantiate (1 := TBin And _ (TPost (PIs IsNull _) (TBin Ast.Add _ (TBin Mult _ (TUn UMinus _ (Leaf _)) (Leaf _)) (Leaf _)))
      (TUn UNot _ (TBin Eq_ _ (Leaf _) (Leaf _)))). cbn. reflexivity. }
  split; [grouped_tac|]. split; [vm_compute; reflexivity|]. vm_compute. reflexivity.
Qed.

(** ** C10 *)
(** The chain [x OR y AND z] groups as [(x OR y) AND z]: it is never parsed as
    [x OR (y AND z)], whatever the operands are. *)
Theorem C10_refuted r inner st x s1 y s2 z st' :
  reads r inner false st [IExp x; IBin Or s1; IExp y; IBin And s2; IExp z] st' -> 5 < r_n r ->
  run (parse_expression r inner) st = ROk (EBinary And s2 (EBinary Or s1 x y) z) st' /\
  run (parse_expression r inner) st <> ROk (EBinary Or s1 x (EBinary And s2 y z)) st'.
Proof.
  intros R L. assert (G : grouped (TBin And s2 (TBin Or s1 (Leaf x) (Leaf y)) (Leaf z))).
  { grouped_tac. }
  rewrite (C09_grouped_is_result r inner st _ st' G R L). split; [reflexivity|]. discriminate.
Qed.
(** A source on which this happens. *)
Theorem C10_refuted_source : exists e s1 s2 a b c,
  parse_statement_api (txt "SELECT a OR b AND c") [] default_options = Returns (Some (SSelect e)) [] /\
  sl_exprs e = [mkSelectExpr (EBinary And s2 (EBinary Or s1 a b) c) None].
Proof. eexists _, _, _, _, _, _. split; vm_compute; reflexivity. Qed.
(** What holds: wherever the two operators are written without parentheses, OR binds tighter. *)
Theorem C10_parentheses_partial r inner st x s1 e st' :
  reads r inner false st [IExp x; IBin Or s1; IExp e] st' -> 3 < r_n r ->
  run (parse_expression r inner) st = ROk (EBinary Or s1 x e) st'.
Proof.
  intros R L. apply (C09_grouped_is_result r inner st (TBin Or s1 (Leaf x) (Leaf e)) st'); [|exact R|exact L].
  grouped_tac.
Qed.
