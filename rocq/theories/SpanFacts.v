(** Spans of AST values: if the spans stored in a value satisfy a predicate that is closed
    under [join], so does the span computed for the value. *)
From Verif Require Export Ast.
Local Open Scope list_scope.

(** [P] is closed under [join]. *)
Class join_closed (P : span -> Prop) := p_join : forall a b, P a -> P b -> P (join a b).
Section SpanFacts.
Variable P : span -> Prop.
Context {P_join : join_closed P}.
Variable B : panic -> Prop.

(** The spans stored in an atom satisfy [P]; an empty list panics in [B]. *)
Definition aspans (a : atom) : Prop :=
  match a with
  | ASpan s | AIdent _ s | AText _ s | AArg _ s | AInvalid s | ALeaf _ s => P s
  | AFeature _ _ => True
  | AEmpty w => B w
  end.
Definition sok (x : sres) : Prop :=
  match x with SSome s => P s | SNone => True | SPanic w => B w end.
Lemma sok_jn x y : sok x -> sok y -> sok (jn x y).
Proof. destruct x, y; cbn; auto. Qed.
Lemma all_l (l l' : list atom) : Forall aspans (l ++ l') -> Forall aspans l.
Proof. intros H. apply Forall_app in H. apply H. Qed.
Lemma all_r (l l' : list atom) : Forall aspans (l ++ l') -> Forall aspans l'.
Proof. intros H. apply Forall_app in H. apply H. Qed.
Lemma all_hd (a : atom) l : Forall aspans (a :: l) -> aspans a.
Proof. intros H. now inversion H. Qed.
Lemma all_tl (a : atom) l : Forall aspans (a :: l) -> Forall aspans l.
Proof. intros H. now inversion H. Qed.

Class SpOk T {A : Atoms T} {S : Spanned T} := spok : forall a : T, Forall aspans (atoms a) -> sok (spn a).
#[local] Hint Mode SpOk ! - - : typeclass_instances.

#[export] Instance SpOk_span : SpOk span := fun a H => all_hd _ _ H.
#[export] Instance SpOk_ident : SpOk ident := fun a H => all_hd _ _ H.
#[export] Instance SpOk_sstring : SpOk sstring := fun a H => all_hd _ _ H.
#[export] Instance SpOk_tagged : SpOk tagged := fun a H => all_hd _ _ H.
#[export] Instance SpOk_argref : SpOk argref := fun a H => all_hd _ _ H.
#[export] Instance SpOk_invalid : SpOk invalid := fun a H => all_hd _ _ H.
#[export] Instance SpOk_stdin : SpOk stdin_data := fun a H => all_hd _ _ H.
#[export] Instance SpOk_option T {A : Atoms T} {S : Spanned T} (_ : SpOk T) : SpOk (option T).
Proof. intros [a|] X; [exact (H a X)|exact I]. Defined.
#[export] Instance SpOk_list T {A : Atoms T} {S : Spanned T} (_ : SpOk T) : SpOk (list T).
Proof.
  intros l X.
  refine ((fix go (l : list T) : Forall aspans (atoms l) -> forall x, sok x -> sok (fold_left (fun a b => jn a (spn b)) l x) :=
    match l with
    | [] => fun _ x Hx => Hx
    | a :: l' => fun X x Hx => go l' (all_r _ _ X) (jn x (spn a)) (sok_jn _ _ Hx (H a (all_l _ _ X)))
    end) l X SNone I).
Defined.
#[export] Instance SpOk_Npair T {A : Atoms T} {S : Spanned T} (_ : SpOk T) : SpOk (N * T).
Proof. intros [n a] X. exact (H a (all_r _ _ X)). Defined.
#[export] Instance SpOk_Nspan : SpOk (N * span) | 0.
Proof. intros [n a] X. exact (all_hd _ _ X). Defined.
#[export] Instance SpOk_Boolpair T {A : Atoms T} {S : Spanned T} (_ : SpOk T) : SpOk (bool * T).
Proof. intros [n a] X. exact (H a (all_r _ _ X)). Defined.
#[export] Instance SpOk_Textpair T {A : Atoms T} {S : Spanned T} (_ : SpOk T) : SpOk (text * T).
Proof. intros [n a] X. exact (H a (all_r _ _ X)). Defined.
#[export] Instance SpOk_prod T U {A : Atoms T} {S : Spanned T} {A' : Atoms U} {S' : Spanned U} (_ : SpOk T) (_ : SpOk U) : SpOk (T * U).
Proof. intros [a c] X. exact (sok_jn _ _ (H a (all_l _ _ X)) (H0 c (all_r _ _ X))). Defined.

Ltac split_all X :=
  lazymatch type of X with
  | Forall _ (_ ++ _) =>
      let X1 := fresh "X" in let X2 := fresh "X" in
      pose proof (all_l _ _ X) as X1; pose proof (all_r _ _ X) as X2; clear X; split_all X1; split_all X2
  | _ => idtac
  end.
Ltac leaf :=
  lazymatch goal with
  | |- sok (jn _ _) => apply sok_jn; leaf
  | |- sok SNone => exact I
  | |- sok (@spn ?T ?I ?x) =>
      let y := eval hnf in x in
      change (sok (@spn T I y)); first [eapply spok; eassumption | match goal with X : Forall _ _ |- _ => exact (all_hd _ _ X) end]
  end.
Ltac exp_spn :=
  lazymatch goal with
  | |- sok (@spn ?T ?I ?v) =>
      let t1 := eval red in (@spn T I v) in let t2 := eval red in t1 in change (sok t2)
  end.
Ltac exp_atoms X :=
  lazymatch type of X with
  | Forall _ (@atoms ?T ?I ?v) =>
      let t1 := eval red in (@atoms T I v) in let t2 := eval red in t1 in change (Forall aspans t2) in X
  end.
Ltac derive_spok :=
  let v := fresh "v" in let X := fresh "X" in intros v; case v; intros; 
  lazymatch goal with X : Forall _ _ |- _ => exp_atoms X; exp_spn; cbv beta iota; split_all X; leaf | |- _ => idtac end.

#[export] Instance SpOk_qname : SpOk qname. Proof. derive_spok. Defined.
#[export] Instance SpOk_idpart : SpOk idpart. Proof. derive_spok. Defined.
#[export] Instance SpOk_order_flag : SpOk order_flag. Proof. derive_spok. Defined.
#[export] Instance SpOk_index_hint : SpOk index_hint. Proof. derive_spok. Defined.
#[export] Instance SpOk_lock_wait : SpOk lock_wait. Proof. derive_spok. Defined.
#[export] Instance SpOk_locking : SpOk locking. Proof. derive_spok. Defined.
#[export] Instance SpOk_timestamp : SpOk timestamp. Proof. derive_spok. Defined.
#[export] Instance SpOk_type : SpOk type_. Proof. derive_spok. Defined.
#[export] Instance SpOk_table_option : SpOk table_option. Proof. derive_spok. Defined.
#[export] Instance SpOk_create_option : SpOk create_option. Proof. derive_spok. Defined.
#[export] Instance SpOk_fc : SpOk function_characteristic. Proof. derive_spok. Defined.
#[export] Instance SpOk_cte : SpOk create_type_enum. Proof. derive_spok. Defined.
#[export] Instance SpOk_io : SpOk index_option. Proof. derive_spok. Defined.
#[export] Instance SpOk_fkon : SpOk foreign_key_on. Proof. derive_spok. Defined.
#[export] Instance SpOk_index_col : SpOk index_col. Proof. derive_spok. Defined.
#[export] Instance SpOk_drop_table : SpOk drop_table. Proof. derive_spok. Defined.
#[export] Instance SpOk_drop_view : SpOk drop_view. Proof. derive_spok. Defined.
#[export] Instance SpOk_drop_q : SpOk drop_q. Proof. derive_spok. Defined.
#[export] Instance SpOk_drop_i : SpOk drop_i. Proof. derive_spok. Defined.
#[export] Instance SpOk_drop_index : SpOk drop_index. Proof. derive_spok. Defined.
#[export] Instance SpOk_truncate : SpOk truncate_table. Proof. derive_spok. Defined.
#[export] Instance SpOk_t2t : SpOk table_to_table. Proof. derive_spok. Defined.
#[export] Instance SpOk_rename : SpOk rename_table. Proof. derive_spok. Defined.
#[export] Instance SpOk_copy : SpOk copy_. Proof. derive_spok. Defined.
#[export] Instance SpOk_union_type : SpOk union_type. Proof. derive_spok. Defined.
#[export] Instance SpOk_oct : SpOk on_conflict_target. Proof. derive_spok. Defined.

(** *** Totality: values whose span is always there *)
Lemma jn_none x y : jn x y = SNone -> x = SNone /\ y = SNone.
Proof. destruct x, y; cbn; try discriminate; auto. Qed.
Lemma sok_expect w x : sok x -> x <> SNone -> sok (sexpect w x).
Proof. destruct x; cbn; auto. congruence. Qed.
#[export] Instance SpOk_idparts : SpOk idparts.
Proof.
  intros [[|a l]] X.
  - exact (all_hd _ _ X).
  - change (sok (sexpect PSpanOfIdentifierParts (spn (a :: l)))). apply sok_expect.
    + apply (spok (a :: l) X).
    + assert (G : forall (l : list idpart) x, fold_left (fun a b => jn a (spn b)) l x = SNone -> x = SNone).
      { clear. induction l as [|b l IH]; cbn; auto. intros x H. now apply IH, jn_none in H as [-> _]. }
      intros H. change (fold_left (fun a b => jn a (spn b)) l (jn SNone (spn a)) = SNone) in H.
      apply G in H. destruct a; discriminate H.
Defined.

Section Types.
Variables E St : Type.
Context {AE : Atoms E} {ASt : Atoms St} {PE : Spanned E} {PSt : Spanned St} {DSt : DataStatement St} {HE : SpOk E} {HSt : SpOk St}.
#[export] Instance SpOk_dt_property : SpOk (dt_property E). Proof. derive_spok. Defined.
#[export] Instance SpOk_data_type : SpOk (data_type E). Proof. derive_spok. Defined.
#[export] Instance SpOk_when : SpOk (when E). Proof. derive_spok. Defined.
#[export] Instance SpOk_select_expr : SpOk (select_expr E). Proof. derive_spok. Defined.
#[export] Instance SpOk_join_spec : SpOk (join_spec E). Proof. derive_spok. Defined.
#[export] Instance SpOk_tref : SpOk (tref E St).
Proof.
  refine (fix go (t : tref E St) : Forall aspans (atoms t) -> sok (spn t) := _). destruct t as [q s a h|q s a|j l r s]; intros X.
  - change (Forall aspans (atoms q ++ atoms s ++ atoms a ++ atoms h ++ used FIndexHint (spn h))) in X.
    change (sok (sexpect PSpanOfTable (jn (jn (jn (spn q) (spn s)) (spn a)) (spn h)))).
    apply sok_expect.
    + pose proof (all_l _ _ X) as X1. pose proof (all_r _ _ X) as X2. pose proof (all_l _ _ X2) as X3.
      pose proof (all_r _ _ X2) as X4. pose proof (all_l _ _ X4). pose proof (all_l _ _ (all_r _ _ X4)). leaf.
    + intros H. apply jn_none in H as [H _]. apply jn_none in H as [H _]. apply jn_none in H as [H _].
      destruct q as [p i]. apply jn_none in H as [H _]. discriminate H.
  - change (Forall aspans (atoms q ++ atoms s ++ atoms a)) in X. change (sok (jn (jn (spn q) (spn s)) (spn a))).
    pose proof (all_l _ _ X) as X1. pose proof (all_r _ _ X) as X2. pose proof (all_l _ _ X2) as X3. pose proof (all_r _ _ X2) as X4. leaf.
  - change (Forall aspans (atoms j ++ atoms l ++ atoms r ++ atoms s)) in X.
    change (sok (jn (jn (jn (spn j) (spn l)) (spn r)) (spn s))).
    pose proof (all_l _ _ X) as X1. pose proof (all_r _ _ X) as X2. pose proof (all_l _ _ X2) as X3.
    pose proof (all_r _ _ X2) as X4. pose proof (all_l _ _ X4) as X5. pose proof (all_r _ _ X4) as X6.
    apply sok_jn; [apply sok_jn; [apply sok_jn|]|]; [leaf|exact (go l X3)|exact (go r X5)|leaf].
Defined.
#[export] Instance SpOk_select : SpOk (select E St). Proof. derive_spok. Defined.
#[export] Instance SpOk_union_with : SpOk (union_with St). Proof. derive_spok. Defined.
#[export] Instance SpOk_union : SpOk (union_ E St). Proof. derive_spok. Defined.
#[export] Instance SpOk_set : SpOk (set_ E). Proof. derive_spok. Defined.
#[export] Instance SpOk_if_condition : SpOk (if_condition E St). Proof. derive_spok. Defined.
#[export] Instance SpOk_if : SpOk (if_ E St). Proof. derive_spok. Defined.
#[export] Instance SpOk_return : SpOk (return_ E). Proof. derive_spok. Defined.
#[export] Instance SpOk_signal : SpOk (signal E). Proof. derive_spok. Defined.
#[export] Instance SpOk_when_statement : SpOk (when_statement E St). Proof. derive_spok. Defined.
#[export] Instance SpOk_case_statement : SpOk (case_statement E St). Proof. derive_spok. Defined.
#[export] Instance SpOk_create_definition : SpOk (create_definition E). Proof. derive_spok. Defined.
#[export] Instance SpOk_create_table : SpOk (create_table E). Proof. derive_spok. Defined.
#[export] Instance SpOk_create_view : SpOk (create_view St). Proof. derive_spok. Defined.
#[export] Instance SpOk_create_function : SpOk (create_function E St). Proof. derive_spok. Defined.
#[export] Instance SpOk_create_trigger : SpOk (create_trigger St). Proof. derive_spok. Defined.
#[export] Instance SpOk_create_index : SpOk (create_index E). Proof. derive_spok. Defined.
#[export] Instance SpOk_aca : SpOk (alter_column_action E). Proof. derive_spok. Defined.
#[export] Instance SpOk_alter_spec : SpOk (alter_specification E). Proof. derive_spok. Defined.
#[export] Instance SpOk_alter_table : SpOk (alter_table E). Proof. derive_spok. Defined.
#[export] Instance SpOk_delete : SpOk (delete E St). Proof. derive_spok. Defined.
#[export] Instance SpOk_ocaction : SpOk (on_conflict_action E). Proof. derive_spok. Defined.
#[export] Instance SpOk_on_conflict : SpOk (on_conflict E). Proof. derive_spok. Defined.
#[export] Instance SpOk_set_pair : SpOk (set_pair E). Proof. derive_spok. Defined.
#[export] Instance SpOk_set_pairs : SpOk (set_pairs E). Proof. derive_spok. Defined.
#[export] Instance SpOk_insert_replace : SpOk (insert_replace E St). Proof. derive_spok. Defined.
#[export] Instance SpOk_with_block : SpOk (with_block St). Proof. derive_spok. Defined.
#[export] Instance SpOk_with_query : SpOk (with_query St). Proof. derive_spok. Defined.
#[export] Instance SpOk_update : SpOk (update E St).
Proof.
  intros v; case v; intros. lazymatch goal with X : Forall _ _ |- _ => exp_atoms X; exp_spn; cbv beta iota; split_all X end.
  assert (G : forall (l : list (list ident * E)) x, Forall aspans (atoms l) -> sok x ->
     sok (fold_left (fun s ab => jn (jn s (spn (fst ab))) (spn (snd ab))) l x)).
  { refine (fix go l := match l with [] => fun x _ Hx => Hx | a :: l' => _ end).
    intros x Y Hx. refine (go l' (jn (jn x (spn (fst a))) (spn (snd a))) (all_r _ _ Y) _). destruct a as [p q]. pose proof (all_l _ _ Y) as Z.
    exact (sok_jn _ _ (sok_jn _ _ Hx (spok p (all_l _ _ Z))) (spok q (all_r _ _ Z))). }
  apply sok_jn; [apply sok_jn; [apply sok_jn|]|]; [leaf| |leaf|leaf].
  apply G; [assumption|exact I].
Defined.
Lemma fold_some (f : St -> sres) l : forall x, fold_left (fun a b => jn a (f b)) l x = SNone -> x = SNone.
Proof. induction l as [|b l IH]; cbn; auto. intros x H. now apply IH, jn_none in H as [-> _]. Qed.
Lemma SpOk_block (HT : forall s : St, spn s <> SNone) : SpOk (block St).
Proof.
  intros [[|a l]] X.
  - exact (all_hd _ _ X).
  - change (sok (sexpect PSpanOfBlock (spn (a :: l)))). apply sok_expect.
    + exact (spok (a :: l) X).
    + intros H. change (fold_left (fun a b => jn a (spn b)) l (jn SNone (spn a)) = SNone) in H.
      apply fold_some in H. exact (HT a H).
Defined.
End Types.

Lemma jn_l x y : x <> SNone -> jn x y <> SNone.
Proof. intros H K. apply jn_none in K as [K _]. auto. Qed.
Lemma some_span (s : span) : spn s <> SNone. Proof. discriminate. Qed.
Lemma some_tag (s : tagged) : spn s <> SNone. Proof. discriminate. Qed.
Lemma some_expect w x : sexpect w x <> SNone. Proof. destruct x; discriminate. Qed.
Ltac some1 :=
  lazymatch goal with
  | |- jn _ _ <> SNone => apply jn_l; some1
  | |- sexpect _ _ <> SNone => apply some_expect
  | |- @spn span _ _ <> SNone => apply some_span
  | |- @spn tagged _ _ <> SNone => apply some_tag
  | |- @spn ?T ?I ?v <> SNone =>
      let t1 := eval red in (@spn T I v) in let t2 := eval red in t1 in change (t2 <> SNone); cbv beta iota; some1
  end.
(** A statement always has a span. *)
Fixpoint stmt_some (s : stmt) : spn s <> SNone.
Proof.
  destruct s as [v|v|v|v|v|v|v|v|v|v|v|v|v|v|v|v|v|v|v|v|v|v|s|s|s|s|v|v|v|v|v|v|v|v|v|v|v|v];
    try (change (spn v <> SNone); destruct v; some1; fail); try discriminate.
  destruct v as [l w o li]. change (jn (jn (jn (spn l) (spn w)) (spn o)) (spn li) <> SNone).
  apply jn_l, jn_l, jn_l. exact (stmt_some l).
Qed.

Fixpoint expr_spok (e : expr) {struct e} : Forall aspans (atoms e) -> sok (spn e)
with stmt_spok (s : stmt) {struct s} : Forall aspans (atoms s) -> sok (spn s).
Proof.
  - pose (HE := expr_spok : SpOk expr). pose (HSt := stmt_spok : SpOk stmt).
    case e; intros;
    lazymatch goal with X : Forall _ (atoms ?e) |- _ =>
      let t := eval cbn [atoms_expr expr_leaves] in (atoms_expr e) in
      change (Forall aspans t) in X; 
      let u := eval cbn [span_expr] in (span_expr e) in
      change (sok u); change span_expr with Sp_expr; change span_stmt with Sp_stmt;
      split_all X; repeat match goal with p : (_ * _)%type |- _ => destruct p end;
      leaf end.
  - pose (HE := expr_spok : SpOk expr). pose (HSt := stmt_spok : SpOk stmt).
    pose (HB := @SpOk_block stmt _ _ HSt stmt_some : SpOk (block stmt)).
    case s; intros;
    lazymatch goal with X : Forall _ (atoms ?e) |- _ =>
      let t := eval cbn [atoms_stmt] in (atoms_stmt e) in
      change (Forall aspans t) in X; 
      let u := eval cbn [span_stmt] in (span_stmt e) in
      change (sok u); change span_expr with Sp_expr; change span_stmt with Sp_stmt;
      split_all X;
      leaf end.
Qed.
End SpanFacts.
