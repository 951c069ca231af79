(** Operator precedence: what the tree of a chain of operands and operators should be, and that
    the reducer of src/expression.rs builds it (C09, C10). *)
From Verif Require Export Expr.
From Coq Require Export Lia.
Local Open Scope list_scope.

(** ** Specification *)
(** Postfix operators: [x IN (..)], [x NOT IN (..)], [x IS ..]. *)
Inductive post := PIn (rhs : list expr) (s : span) (neg : bool) | PIs (k : is_) (s : span).
Definition apply_post (p : post) (x : expr) : expr :=
  match p with PIn rhs s neg => EIn x rhs s neg | PIs k s => EIs x k s end.
(** The items of a chain, in source order: operands, binary operators, prefix operators and
    postfix operators, with their positions. *)
Inductive item := IExp (e : expr) | IBin (o : binop) (s : span) | IUn (o : unop) (s : span) | IPost (p : post).
(** Operator trees over operands; an operand is an expression that is not looked into: a
    literal, a name, a call, or something in parentheses. *)
Inductive tree :=
| Leaf (e : expr) | TUn (o : unop) (s : span) (x : tree) | TBin (o : binop) (s : span) (l r : tree) | TPost (p : post) (x : tree).
(** The expression a tree stands for. *)
Fixpoint to_expr (t : tree) : expr :=
  match t with
  | Leaf e => e
  | TUn o s x => EUnary o s (to_expr x)
  | TBin o s l r => EBinary o s (to_expr l) (to_expr r)
  | TPost p x => apply_post p (to_expr x)
  end.
(** The chain, from left to right. *)
Fixpoint frontier (t : tree) : list item :=
  match t with
  | Leaf e => [IExp e]
  | TUn o s x => IUn o s :: frontier x
  | TBin o s l r => frontier l ++ IBin o s :: frontier r
  | TPost p x => frontier x ++ [IPost p]
  end.
(** The priority table (smaller binds tighter), as documented in src/expression.rs. *)
Definition priority (o : binop) : N :=
  match o with
  | BitXor => 50
  | Mult | Divide | Div | Mod => 60
  | Add | Subtract => 70
  | ShiftLeft | ShiftRight => 80
  | BitAnd => 90
  | BitOr => 100
  | Eq_ | NullSafeEq | GtEq | Gt_ | LtEq | Lt_ | Neq | Like | NotLike => 110
  | Or => 140
  | Xor => 150
  | And => 160
  end%N.
Definition prefix_priority (o : unop) : N :=
  match o with UBinary | UCollate => 20 | ULogicalNot => 30 | UMinus => 40 | UNot => 130 end%N.
Definition postfix_priority : N := 110%N.
(** The operators that are exposed at the right edge of a tree (nothing closes them on the
    right), and at its left edge. *)
Fixpoint right_ops (t : tree) : list N :=
  match t with
  | Leaf _ | TPost _ _ => []
  | TUn o _ x => prefix_priority o :: right_ops x
  | TBin o _ _ r => priority o :: right_ops r
  end.
Fixpoint left_ops (t : tree) : list N :=
  match t with
  | Leaf _ | TUn _ _ _ => []
  | TBin o _ l _ => priority o :: left_ops l
  | TPost _ x => postfix_priority :: left_ops x
  end.
Definition all_le (l : list N) (p : N) : Prop := Forall (fun q => (q <= p)%N) l.
Definition all_lt (l : list N) (p : N) : Prop := Forall (fun q => (q < p)%N) l.
(** The tree groups by precedence and, at equal precedence, to the left: what stands left of an
    operator binds at least as tightly, what stands right of it more tightly. *)
Fixpoint grouped (t : tree) : Prop :=
  match t with
  | Leaf _ => True
  | TUn o _ x => grouped x /\ all_lt (left_ops x) (prefix_priority o)
  | TBin o _ l r => grouped l /\ grouped r /\ all_le (right_ops l) (priority o) /\ all_lt (left_ops r) (priority o)
  | TPost _ x => grouped x /\ all_le (right_ops x) postfix_priority
  end.

(** For chains of binary operators only, this says just that of each node and its two children. *)
Fixpoint binary_only (t : tree) : Prop :=
  match t with Leaf _ => True | TBin _ _ l r => binary_only l /\ binary_only r | _ => False end.
Definition root (t : tree) : option N := match t with TBin o _ _ _ => Some (priority o) | _ => None end.
Definition opt_le (x : option N) (p : N) : Prop := match x with Some q => (q <= p)%N | None => True end.
Definition opt_lt (x : option N) (p : N) : Prop := match x with Some q => (q < p)%N | None => True end.
Fixpoint children_grouped (t : tree) : Prop :=
  match t with
  | TBin o _ l r => opt_le (root l) (priority o) /\ opt_lt (root r) (priority o) /\ children_grouped l /\ children_grouped r
  | _ => True
  end.
Lemma grouped_binary t : binary_only t -> (grouped t <-> children_grouped t).
Proof.
  assert (R : forall t p, binary_only t -> children_grouped t -> opt_le (root t) p -> all_le (right_ops t) p).
  { clear. induction t as [e|o s x _|o s l IHl r IHr|q x _]; cbn; try easy; [constructor|].
    intros p [B1 B2] (H1 & H2 & H3 & H4) H. constructor; [exact H|]. apply IHr; auto. destruct (root r); cbn in *; [lia|trivial]. }
  assert (L : forall t p, binary_only t -> children_grouped t -> opt_lt (root t) p -> all_lt (left_ops t) p).
  { clear. induction t as [e|o s x _|o s l IHl r IHr|q x _]; cbn; try easy; [constructor|].
    intros p [B1 B2] (H1 & H2 & H3 & H4) H. constructor; [exact H|]. apply IHl; auto. destruct (root l); cbn in *; [lia|trivial]. }
  induction t as [e|o s x _|o s l IHl r IHr|q x _]; cbn; try tauto. intros [B1 B2]. rewrite (IHl B1), (IHr B2). split.
  - intros (G1 & G2 & G3 & G4). split; [|split; [|tauto]].
    + destruct l; cbn in *; trivial. now inversion G3.
    + destruct r; cbn in *; trivial. now inversion G4.
  - intros (G1 & G2 & G3 & G4). auto.
Qed.

(** ** The reducer, on trees *)
Lemma priority_ok o : bin_priority o = priority o. Proof. now destruct o. Qed.
Lemma prefix_ok o : un_priority o = prefix_priority o. Proof. now destruct o. Qed.

(** The reducer's stack, top first, with trees instead of expressions. *)
Inductive ctx := CNil | CUn (o : unop) (s : span) (c : ctx) | CBin (o : binop) (s : span) (l : tree) (c : ctx).
Fixpoint cstack (c : ctx) : stack :=
  match c with
  | CNil => []
  | CUn o s c => MUn o s :: cstack c
  | CBin o s l c => MBin o s :: MExpr (to_expr l) :: cstack c
  end.
Definition tstack (x : option tree * ctx) : stack :=
  match fst x with Some t => MExpr (to_expr t) :: cstack (snd x) | None => cstack (snd x) end.
Fixpoint tloop (p : N) (t : tree) (c : ctx) : tree * ctx :=
  match c with
  | CNil => (t, c)
  | CUn o s c' => if (p <? un_priority o)%N then (t, c) else tloop p (TUn o s t) c'
  | CBin o s l c' => if (p <? bin_priority o)%N then (t, c) else tloop p (TBin o s l t) c'
  end.
Lemma reduce_loop_tree p : forall c t,
  reduce_loop p (to_expr t) (cstack c) = RedOk (MExpr (to_expr (fst (tloop p t c))) :: cstack (snd (tloop p t c))).
Proof.
  induction c as [|o s c IH|o s l c IH]; intros t; cbn [cstack reduce_loop tloop]; [reflexivity| |].
  - destruct (N.ltb _ _); [reflexivity|apply (IH (TUn o s t))].
  - destruct (N.ltb _ _); [reflexivity|apply (IH (TBin o s l t))].
Qed.
Lemma reduce_tree p t c : reduce p (tstack (Some t, c)) = RedOk (tstack (Some (fst (tloop p t c)), snd (tloop p t c))).
Proof. apply reduce_loop_tree. Qed.

(** One item. *)
Definition shift_post (p : post) (stk : stack) : rres :=
  match reduce in_priority stk with
  | RedOk (MExpr e :: stk') => shift_expr (apply_post p e) stk'
  | RedOk _ => RedErr "no expression"
  | RedErr m => RedErr m
  end.
Definition shift_item (i : item) (stk : stack) : rres :=
  match i with
  | IExp e => shift_expr e stk
  | IBin o s => shift_binop s o stk
  | IUn o s => shift_unary s o stk
  | IPost p => shift_post p stk
  end.
Fixpoint feed (l : list item) (stk : stack) : rres :=
  match l with
  | [] => RedOk stk
  | i :: l => match shift_item i stk with RedOk s => feed l s | RedErr m => RedErr m end
  end.
Lemma feed_app a b stk : feed (a ++ b) stk = match feed a stk with RedOk s => feed b s | RedErr m => RedErr m end.
Proof. revert stk. induction a as [|i a IH]; intros stk; cbn; [reflexivity|]. destruct (shift_item i stk); auto. Qed.

(** *** Every grouped tree is found *)
Definition barrier (c : ctx) : option N :=
  match c with CNil => None | CUn o _ _ => Some (prefix_priority o) | CBin o _ _ _ => Some (priority o) end.
Definition below (l : list N) (b : option N) : Prop := match b with Some p => all_lt l p | None => True end.
Lemma below_cons q l b : below (q :: l) b -> below [q] b /\ below l b.
Proof. destruct b; cbn; [|auto]. intros H. inversion H; subst. split; [repeat constructor; auto|auto]. Qed.
Lemma tloop_stops p t c : below [p] (barrier c) -> tloop p t c = (t, c).
Proof.
  destruct c as [|o s c|o s l c]; cbn [barrier below tloop]; intros H; [reflexivity| |]; inversion H as [|? ? X _]; subst.
  - rewrite prefix_ok. destruct (N.ltb_spec p (prefix_priority o)); [reflexivity|lia].
  - rewrite priority_ok. destruct (N.ltb_spec p (priority o)); [reflexivity|lia].
Qed.
Lemma top_ctx c : top_expr (cstack c) = false. Proof. now destruct c. Qed.
(** The machine on trees. *)
Definition tshift (i : item) (x : option tree * ctx) : option (option tree * ctx) :=
  match i, x with
  | IExp e, (None, c) => Some (Some (Leaf e), c)
  | IUn o s, (None, c) => Some (None, CUn o s c)
  | IBin o s, (Some t, c) => let (t', c') := tloop (bin_priority o) t c in Some (None, CBin o s t' c')
  | IPost p, (Some t, c) => let (t', c') := tloop in_priority t c in Some (Some (TPost p t'), c')
  | _, _ => None
  end.
Fixpoint tfeed (l : list item) (x : option tree * ctx) : option (option tree * ctx) :=
  match l with [] => Some x | i :: l => match tshift i x with Some y => tfeed l y | None => None end end.
Lemma tfeed_app a b x : tfeed (a ++ b) x = match tfeed a x with Some y => tfeed b y | None => None end.
Proof. revert x. induction a as [|i a IH]; intros x; cbn; [reflexivity|]. destruct (tshift i x); auto. Qed.
Lemma shift_tree i x y : tshift i x = Some y -> shift_item i (tstack x) = RedOk (tstack y).
Proof.
  destruct i as [e|o s|o s|p], x as [[t|] c]; cbn [tshift shift_item]; intros H; try discriminate.
  - injection H as <-. unfold tstack, shift_expr. cbn [fst snd]. now rewrite top_ctx.
  - unfold shift_binop. rewrite reduce_tree. destruct (tloop _ t c) as [t' c']. now injection H as <-.
  - injection H as <-. unfold tstack, shift_unary. cbn [fst snd]. now rewrite top_ctx.
  - unfold shift_post. rewrite reduce_tree. destruct (tloop _ t c) as [t' c']. injection H as <-.
    unfold tstack, shift_expr. cbn [fst snd]. now rewrite top_ctx.
Qed.
Lemma feed_tree l : forall x y, tfeed l x = Some y -> feed l (tstack x) = RedOk (tstack y).
Proof.
  induction l as [|i l IH]; intros x y H; cbn in *; [now injection H as ->|].
  destruct (tshift i x) as [z|] eqn:E; [|discriminate]. rewrite (shift_tree _ _ _ E). auto.
Qed.
(** Feeding the chain of a grouped tree leaves it on the stack, up to reductions. *)
Lemma feed_grouped t : grouped t -> forall c, below (left_ops t) (barrier c) ->
  exists t' c', tfeed (frontier t) (None, c) = Some (Some t', c') /\
    forall p, all_le (right_ops t) p -> tloop p t' c' = tloop p t c.
Proof.
  induction t as [e|o s x IH|o s l IHl r IHr|q x IH]; intros G c B; cbn [frontier grouped left_ops right_ops] in *.
  - exists (Leaf e), c. split; [reflexivity|auto].
  - destruct G as [G1 G2]. destruct (IH G1 (CUn o s c) G2) as (t' & c' & E & R). exists t', c'. split; [exact E|].
    intros p H. inversion H as [|? ? H1 H2]; subst. rewrite (R p H2). cbn [tloop]. rewrite prefix_ok.
    destruct (N.ltb_spec p (prefix_priority o)); [lia|reflexivity].
  - destruct G as (G1 & G2 & G3 & G4). apply below_cons in B as [B1 B2].
    destruct (IHl G1 c B2) as (t1 & c1 & E1 & R1). destruct (IHr G2 (CBin o s l c) G4) as (t2 & c2 & E2 & R2).
    exists t2, c2. split.
    + rewrite tfeed_app, E1. cbn [tfeed tshift]. rewrite priority_ok, (R1 _ G3), (tloop_stops _ _ _ B1). exact E2.
    + intros p H. inversion H as [|? ? H1 H2]; subst. rewrite (R2 p H2). cbn [tloop]. rewrite priority_ok.
      destruct (N.ltb_spec p (priority o)); [lia|reflexivity].
  - destruct G as [G1 G2]. apply below_cons in B as [B1 B2]. destruct (IH G1 c B2) as (t' & c' & E & R).
    exists (TPost q x), c. split; [|auto]. rewrite tfeed_app, E. cbn [tfeed tshift].
    change in_priority with postfix_priority. now rewrite (R _ G2), (tloop_stops _ _ _ B1).
Qed.
Lemma tloop_all p : forall c t, (160 <= p)%N -> exists t', tloop p t c = (t', CNil).
Proof.
  intros c. induction c as [|o s c IH|o s l c IH]; intros t H; cbn [tloop]; [eauto| |].
  - assert (un_priority o <= 160)%N by (destruct o; cbn; lia). destruct (N.ltb_spec p (un_priority o)); [lia|auto].
  - assert (bin_priority o <= 160)%N by (destruct o; cbn; lia). destruct (N.ltb_spec p (bin_priority o)); [lia|auto].
Qed.
Lemma all_le_160 t p : (160 <= p)%N -> all_le (right_ops t) p.
Proof.
  intros H. induction t as [e|o s x IH|o s l IHl r IHr|q x IH]; cbn; try constructor; auto.
  - destruct o; cbn; lia.
  - destruct o; cbn; lia.
Qed.
Theorem machine_complete t : grouped t ->
  exists stk, feed (frontier t) [] = RedOk stk /\ reduce 99999 stk = RedOk [MExpr (to_expr t)].
Proof.
  intros G. destruct (feed_grouped t G CNil I) as (t' & c' & E & R). exists (tstack (Some t', c')).
  split; [exact (feed_tree _ (None, CNil) _ E)|]. rewrite reduce_tree, R by (apply all_le_160; lia). reflexivity.
Qed.
(** The chain determines the tree. *)
Theorem grouped_unique t t' : grouped t -> grouped t' -> frontier t = frontier t' -> t = t'.
Proof.
  intros G G' F. destruct (feed_grouped t G CNil I) as (t1 & c1 & E1 & R1). destruct (feed_grouped t' G' CNil I) as (t2 & c2 & E2 & R2).
  rewrite F in E1. rewrite E1 in E2. injection E2 as -> ->.
  specialize (R1 160%N (all_le_160 _ _ (N.le_refl _))). specialize (R2 160%N (all_le_160 _ _ (N.le_refl _))).
  rewrite R1 in R2. cbn in R2. now injection R2.
Qed.

(** *** Every tree found is grouped *)
Fixpoint ctx_items (c : ctx) : list item :=
  match c with
  | CNil => []
  | CUn o s c => ctx_items c ++ [IUn o s]
  | CBin o s l c => ctx_items c ++ frontier l ++ [IBin o s]
  end.
Fixpoint ctx_ok (c : ctx) : Prop :=
  match c with
  | CNil => True
  | CUn o s c => ctx_ok c
  | CBin o s l c => ctx_ok c /\ grouped l /\ all_le (right_ops l) (priority o) /\ below (priority o :: left_ops l) (barrier c)
  end.
Lemma tloop_ok p : forall c t, ctx_ok c -> grouped t -> all_le (right_ops t) p -> below (left_ops t) (barrier c) ->
  let '(t', c') := tloop p t c in
  ctx_ok c' /\ grouped t' /\ all_le (right_ops t') p /\ below (left_ops t') (barrier c') /\ below [p] (barrier c') /\
  ctx_items c' ++ frontier t' = ctx_items c ++ frontier t.
Proof.
  induction c as [|o s c IH|o s l c IH]; intros t C G R B; cbn [tloop].
  - repeat split; auto.
  - rewrite prefix_ok. destruct (N.ltb_spec p (prefix_priority o)).
    + repeat split; auto. cbn. repeat constructor; auto.
    + specialize (IH (TUn o s t) C). destruct (tloop p (TUn o s t) c) as [t' c'].
      destruct IH as (I1 & I2 & I3 & I4 & I5 & I6); cbn [grouped right_ops left_ops]; auto.
      * constructor; auto.
      * destruct (barrier c); constructor.
      * repeat split; auto. rewrite I6. cbn. now rewrite <- app_assoc.
  - rewrite priority_ok. destruct (N.ltb_spec p (priority o)).
    + repeat split; auto; try apply C. cbn. repeat constructor; auto.
    + destruct C as (C1 & C2 & C3 & C4). specialize (IH (TBin o s l t) C1). destruct (tloop p (TBin o s l t) c) as [t' c'].
      destruct IH as (I1 & I2 & I3 & I4 & I5 & I6); cbn [grouped right_ops left_ops]; auto.
      * constructor; auto.
      * repeat split; auto. rewrite I6. cbn. now rewrite <- !app_assoc.
Qed.
(** The stack after reading [items]. *)
Definition represents (stk : stack) (items : list item) : Prop :=
  exists c, ctx_ok c /\
    ((stk = cstack c /\ items = ctx_items c) \/
     (exists t, stk = tstack (Some t, c) /\ grouped t /\ right_ops t = [] /\ below (left_ops t) (barrier c) /\ items = ctx_items c ++ frontier t)).
Lemma top_tree t c : top_expr (tstack (Some t, c)) = true. Proof. reflexivity. Qed.
Lemma shift_represents i stk stk' items : represents stk items -> shift_item i stk = RedOk stk' -> represents stk' (items ++ [i]).
Proof.
  intros (c & C & [[-> ->]|(t & -> & G & R & B & ->)]) H; destruct i as [e|o s|o s|p]; cbn [shift_item] in H.
  - unfold shift_expr in H. rewrite top_ctx in H. injection H as <-. exists c. split; [exact C|right].
    exists (Leaf e). cbn. repeat split. destruct (barrier c); constructor.
  - unfold shift_binop in H. destruct c; discriminate.
  - unfold shift_unary in H. rewrite top_ctx in H. injection H as <-. exists (CUn o s c). split; [exact C|left]. split; reflexivity.
  - unfold shift_post in H. destruct c; discriminate.
  - discriminate.
  - unfold shift_binop in H. rewrite reduce_tree in H. assert (X : all_le (right_ops t) (bin_priority o)) by (rewrite R; constructor).
    pose proof (tloop_ok (bin_priority o) c t C G X B) as T. destruct (tloop _ t c) as [t' c']. destruct T as (T1 & T2 & T3 & T4 & T5 & T6).
    injection H as <-. exists (CBin o s t' c'). split.
    + cbn [ctx_ok]. rewrite priority_ok in *. split; [exact T1|]. split; [exact T2|]. split; [exact T3|]. destruct (barrier c'); cbn in *; [|exact I]. constructor; [now inversion T5|exact T4].
    + left. split; [reflexivity|]. cbn [ctx_items]. rewrite <- T6, <- !app_assoc. reflexivity.
  - discriminate.
  - unfold shift_post in H. rewrite reduce_tree in H. assert (X : all_le (right_ops t) in_priority) by (rewrite R; constructor).
    pose proof (tloop_ok in_priority c t C G X B) as T. destruct (tloop _ t c) as [t' c']. destruct T as (T1 & T2 & T3 & T4 & T5 & T6).
    unfold tstack in H. cbn [fst snd] in H. unfold shift_expr in H. rewrite top_ctx in H. injection H as <-.
    exists c'. split; [exact T1|right]. exists (TPost p t'). cbn [grouped right_ops left_ops frontier]. split; [reflexivity|]. split; [split; auto|]. split; [reflexivity|]. split.
    + destruct (barrier c'); cbn in *; [|exact I]. constructor; [now inversion T5|exact T4].
    + rewrite <- T6, <- !app_assoc. reflexivity.
Qed.
Lemma feed_represents l : forall stk stk' items, represents stk items -> feed l stk = RedOk stk' -> represents stk' (items ++ l).
Proof.
  induction l as [|i l IH]; intros stk stk' items R H; cbn in H.
  - injection H as <-. now rewrite app_nil_r.
  - destruct (shift_item i stk) as [s|] eqn:E; [|discriminate]. change (i :: l) with ([i] ++ l). rewrite app_assoc.
    eapply IH; [|exact H]. eapply shift_represents; eauto.
Qed.
Lemma represents_nil : represents [] [].
Proof. exists CNil. split; [exact I|left]. now split. Qed.
Theorem machine_sound items stk s : feed items [] = RedOk stk -> reduce 99999 stk = RedOk s ->
  exists t, grouped t /\ frontier t = items /\ s = [MExpr (to_expr t)].
Proof.
  intros F R. pose proof (feed_represents _ _ _ _ represents_nil F) as (c & C & [[-> E]|(t & -> & G & Rt & B & E)]).
  - destruct c; discriminate.
  - rewrite reduce_tree in R. injection R as <-. assert (X : all_le (right_ops t) 99999) by (apply all_le_160; lia).
    pose proof (tloop_ok 99999%N c t C G X B) as T. destruct (tloop_all 99999%N c t ltac:(lia)) as [t' E']. rewrite E' in *.
    destruct T as (_ & T2 & _ & _ & _ & T6). exists t'. cbn in T6, E. split; [exact T2|]. split; [now rewrite T6, <- E|reflexivity].
Qed.

