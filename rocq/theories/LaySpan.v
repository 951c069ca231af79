(** C56: the span of the AST with other positions. *)
From Verif Require Export Layout SpanFacts.
Local Open Scope list_scope.

Section SpanMap.
Context {L : lenv}.
Definition smap (x : sres) : sres := match x with SSome s => SSome (lf s) | _ => x end.
Lemma jn_eq a b x y : a = smap x -> b = smap y -> jn a b = smap (jn x y).
Proof. intros -> ->. destruct x, y; try reflexivity. cbn. now rewrite lf_join. Qed.
Lemma sexpect_eq w a x : a = smap x -> sexpect w a = smap (sexpect w x).
Proof. intros ->. now destruct x. Qed.
Class SpL T {R : Respan T} {S : Spanned T} := spl : forall a : T, spn (respan lf a) = smap (spn a).
#[local] Hint Mode SpL ! - - : typeclass_instances.
#[export] Instance SpL_span : SpL span := fun a => eq_refl.
#[export] Instance SpL_option T {A : Respan T} {S : Spanned T} (_ : SpL T) : SpL (option T).
Proof. intros [a|]; [exact (H a)|reflexivity]. Defined.
#[export] Instance SpL_list T {A : Respan T} {S : Spanned T} (_ : SpL T) : SpL (list T).
Proof.
  intros l. refine ((fix go (l : list T) : forall x y, y = smap x -> fold_left (fun a b => jn a (spn b)) (respan lf l) y = smap (fold_left (fun a b => jn a (spn b)) l x) :=
    match l with
    | [] => fun x y Hx => Hx
    | a :: l' => fun x y Hx => go l' (jn x (spn a)) (jn y (spn (respan lf a))) (jn_eq _ _ _ _ Hx (H a))
    end) l SNone SNone eq_refl).
Defined.
#[export] Instance SpL_Npair T {A : Respan T} {S : Spanned T} (_ : SpL T) : SpL (N * T).
Proof. intros [n a]. exact (H a). Defined.
#[export] Instance SpL_Boolpair T {A : Respan T} {S : Spanned T} (_ : SpL T) : SpL (bool * T).
Proof. intros [n a]. exact (H a). Defined.
#[export] Instance SpL_Textpair T {A : Respan T} {S : Spanned T} (_ : SpL T) : SpL (text * T).
Proof. intros [n a]. exact (H a). Defined.
#[export] Instance SpL_prod T U {A : Respan T} {S : Spanned T} {A' : Respan U} {S' : Spanned U} (_ : SpL T) (_ : SpL U) : SpL (T * U).
Proof. intros [a c]. exact (jn_eq _ _ _ _ (H a) (H0 c)). Defined.
Ltac spleaf :=
  lazymatch goal with
  | |- jn _ _ = smap (jn _ _) => apply jn_eq; spleaf
  | |- sexpect _ _ = smap (sexpect _ _) => apply sexpect_eq; spleaf
  | |- SNone = _ => reflexivity
  | |- SSome _ = _ => reflexivity
  | |- _ = smap (@spn ?T ?I ?x) => let y := eval hnf in x in change (@spn T I (respan lf y) = smap (@spn T I y)); first [apply spl|idtac]
  end.
Ltac exp_spl :=
  lazymatch goal with
  | |- @spn ?T ?I ?v' = smap (@spn ?T ?I ?v) =>
      let w := eval hnf in v' in
      let t1 := eval red in (@spn T I v) in let t2 := eval red in t1 in
      let u1 := eval red in (@spn T I w) in let u2 := eval red in u1 in change (u2 = smap t2)
  end.
Ltac derive_spl := let v := fresh "v" in intros v; case v; intros; exp_spl; cbv beta iota; spleaf.
#[export] Instance SpL_ident : SpL ident. Proof. derive_spl. Defined.
#[export] Instance SpL_sstring : SpL sstring. Proof. derive_spl. Defined.
#[export] Instance SpL_tagged : SpL tagged. Proof. derive_spl. Defined.
#[export] Instance SpL_argref : SpL argref. Proof. derive_spl. Defined.
#[export] Instance SpL_invalid : SpL invalid. Proof. derive_spl. Defined.
#[export] Instance SpL_stdin_data : SpL stdin_data. Proof. derive_spl. Defined.
#[export] Instance SpL_qname : SpL qname. Proof. derive_spl. Defined.
#[export] Instance SpL_idpart : SpL idpart. Proof. derive_spl. Defined.
#[export] Instance SpL_order_flag : SpL order_flag. Proof. derive_spl. Defined.
#[export] Instance SpL_index_hint : SpL index_hint. Proof. derive_spl. Defined.
#[export] Instance SpL_lock_wait : SpL lock_wait. Proof. derive_spl. Defined.
#[export] Instance SpL_locking : SpL locking. Proof. derive_spl. Defined.
#[export] Instance SpL_timestamp : SpL timestamp. Proof. derive_spl. Defined.
#[export] Instance SpL_type_ : SpL type_. Proof. derive_spl. Defined.
#[export] Instance SpL_table_option : SpL table_option. Proof. derive_spl. Defined.
#[export] Instance SpL_create_option : SpL create_option. Proof. derive_spl. Defined.
#[export] Instance SpL_function_characteristic : SpL function_characteristic. Proof. derive_spl. Defined.
#[export] Instance SpL_create_type_enum : SpL create_type_enum. Proof. derive_spl. Defined.
#[export] Instance SpL_index_option : SpL index_option. Proof. derive_spl. Defined.
#[export] Instance SpL_foreign_key_on : SpL foreign_key_on. Proof. derive_spl. Defined.
#[export] Instance SpL_index_col : SpL index_col. Proof. derive_spl. Defined.
#[export] Instance SpL_drop_table : SpL drop_table. Proof. derive_spl. Defined.
#[export] Instance SpL_drop_view : SpL drop_view. Proof. derive_spl. Defined.
#[export] Instance SpL_drop_q : SpL drop_q. Proof. derive_spl. Defined.
#[export] Instance SpL_drop_i : SpL drop_i. Proof. derive_spl. Defined.
#[export] Instance SpL_drop_index : SpL drop_index. Proof. derive_spl. Defined.
#[export] Instance SpL_truncate_table : SpL truncate_table. Proof. derive_spl. Defined.
#[export] Instance SpL_table_to_table : SpL table_to_table. Proof. derive_spl. Defined.
#[export] Instance SpL_rename_table : SpL rename_table. Proof. derive_spl. Defined.
#[export] Instance SpL_copy_ : SpL copy_. Proof. derive_spl. Defined.
#[export] Instance SpL_union_type : SpL union_type. Proof. derive_spl. Defined.
#[export] Instance SpL_on_conflict_target : SpL on_conflict_target. Proof. derive_spl. Defined.
#[export] Instance SpL_idparts : SpL idparts.
Proof. intros [[|a l]]; [reflexivity|]. change (sexpect PSpanOfIdentifierParts (spn (respan lf (a :: l))) = smap (sexpect PSpanOfIdentifierParts (spn (a :: l)))). apply sexpect_eq. apply (spl (a :: l)). Defined.
Section Types.
Variables E St : Type.
Context {AE : Respan E} {ASt : Respan St} {PE : Spanned E} {PSt : Spanned St} {DSt : DataStatement St} {HE : SpL E} {HSt : SpL St}.
#[export] Instance SpL_dt_property : SpL (dt_property E). Proof. derive_spl. Defined.
#[export] Instance SpL_data_type : SpL (data_type E). Proof. derive_spl. Defined.
#[export] Instance SpL_when : SpL (when E). Proof. derive_spl. Defined.
#[export] Instance SpL_select_expr : SpL (select_expr E). Proof. derive_spl. Defined.
#[export] Instance SpL_join_spec : SpL (join_spec E). Proof. derive_spl. Defined.
#[export] Instance SpL_tref : SpL (tref E St).
Proof.
  refine (fix go (t : tref E St) : spn (respan lf t) = smap (spn t) := _). destruct t as [q s a h|q s a|j l r s].
  - change (sexpect PSpanOfTable (jn (jn (jn (spn (respan lf q)) (spn (respan lf s))) (spn (respan lf a))) (spn (respan lf h))) = smap (sexpect PSpanOfTable (jn (jn (jn (spn q) (spn s)) (spn a)) (spn h)))). spleaf.
  - change (jn (jn (spn (respan lf q)) (spn (respan lf s))) (spn (respan lf a)) = smap (jn (jn (spn q) (spn s)) (spn a))). spleaf.
  - change (jn (jn (jn (spn (respan lf j)) (spn (respan lf l))) (spn (respan lf r))) (spn (respan lf s)) = smap (jn (jn (jn (spn j) (spn l)) (spn r)) (spn s))).
    apply jn_eq; [apply jn_eq; [apply jn_eq|]|]; [spleaf|exact (go l)|exact (go r)|spleaf].
Defined.
#[export] Instance SpL_select : SpL (select E St). Proof. derive_spl. Defined.
#[export] Instance SpL_union_with : SpL (union_with St). Proof. derive_spl. Defined.
#[export] Instance SpL_union_ : SpL (union_ E St). Proof. derive_spl. Defined.
#[export] Instance SpL_set_ : SpL (set_ E). Proof. derive_spl. Defined.
#[export] Instance SpL_if_condition : SpL (if_condition E St). Proof. derive_spl. Defined.
#[export] Instance SpL_if_ : SpL (if_ E St). Proof. derive_spl. Defined.
#[export] Instance SpL_return_ : SpL (return_ E). Proof. derive_spl. Defined.
#[export] Instance SpL_signal : SpL (signal E). Proof. derive_spl. Defined.
#[export] Instance SpL_when_statement : SpL (when_statement E St). Proof. derive_spl. Defined.
#[export] Instance SpL_case_statement : SpL (case_statement E St). Proof. derive_spl. Defined.
#[export] Instance SpL_create_definition : SpL (create_definition E). Proof. derive_spl. Defined.
#[export] Instance SpL_create_table : SpL (create_table E). Proof. derive_spl. Defined.
#[export] Instance SpL_create_view : SpL (create_view St). Proof. derive_spl. Defined.
#[export] Instance SpL_create_function : SpL (create_function E St). Proof. derive_spl. Defined.
#[export] Instance SpL_create_trigger : SpL (create_trigger St). Proof. derive_spl. Defined.
#[export] Instance SpL_create_index : SpL (create_index E). Proof. derive_spl. Defined.
#[export] Instance SpL_alter_column_action : SpL (alter_column_action E). Proof. derive_spl. Defined.
#[export] Instance SpL_alter_specification : SpL (alter_specification E). Proof. derive_spl. Defined.
#[export] Instance SpL_alter_table : SpL (alter_table E). Proof. derive_spl. Defined.
#[export] Instance SpL_delete : SpL (delete E St). Proof. derive_spl. Defined.
#[export] Instance SpL_on_conflict_action : SpL (on_conflict_action E). Proof. derive_spl. Defined.
#[export] Instance SpL_on_conflict : SpL (on_conflict E). Proof. derive_spl. Defined.
#[export] Instance SpL_set_pair : SpL (set_pair E). Proof. derive_spl. Defined.
#[export] Instance SpL_set_pairs : SpL (set_pairs E). Proof. derive_spl. Defined.
#[export] Instance SpL_insert_replace : SpL (insert_replace E St). Proof. derive_spl. Defined.
#[export] Instance SpL_with_block : SpL (with_block St). Proof. derive_spl. Defined.
#[export] Instance SpL_with_query : SpL (with_query St). Proof. derive_spl. Defined.
#[export] Instance SpL_block : SpL (block St).
Proof. intros [[|a l]]; [reflexivity|]. change (sexpect PSpanOfBlock (spn (respan lf (a :: l))) = smap (sexpect PSpanOfBlock (spn (a :: l)))). apply sexpect_eq. apply (spl (a :: l)). Defined.
#[export] Instance SpL_update : SpL (update E St).
Proof.
  intros v; case v; intros; exp_spl; cbv beta iota.
  assert (G : forall (l : list (list ident * E)) x y, y = smap x ->
     fold_left (fun s ab => jn (jn s (spn (fst ab))) (spn (snd ab))) (respan lf l) y = smap (fold_left (fun s ab => jn (jn s (spn (fst ab))) (spn (snd ab))) l x)).
  { refine (fix go l := match l with [] => fun x y Hx => Hx | a :: l' => _ end).
    intros x y Hx. refine (go l' (jn (jn x (spn (fst a))) (spn (snd a))) (jn (jn y (spn (fst (respan lf a)))) (spn (snd (respan lf a)))) _). destruct a as [p q].
    exact (jn_eq _ _ _ _ (jn_eq _ _ _ _ Hx (spl p)) (spl q)). }
  apply jn_eq; [apply jn_eq; [apply jn_eq|]|]; [spleaf| |spleaf|spleaf].
  apply G. reflexivity.
Defined.
End Types.
Fixpoint expr_spl (e : expr) {struct e} : span_expr (respan_expr lf e) = smap (span_expr e)
with stmt_spl (s : stmt) {struct s} : span_stmt (respan_stmt lf s) = smap (span_stmt s).
Proof.
  - pose (HE := expr_spl : SpL expr). pose (HSt := stmt_spl : SpL stmt).
    case e; intros;
    lazymatch goal with |- span_expr (respan_expr lf ?e) = _ =>
      let w := eval hnf in (respan_expr lf e) in
      let t := eval cbn [span_expr] in (span_expr w) in
      let u := eval cbn [span_expr] in (span_expr e) in
      change (t = smap u); change span_expr with Sp_expr; change span_stmt with Sp_stmt; repeat match goal with p : (_ * _)%type |- _ => destruct p end; spleaf end.
  - pose (HE := expr_spl : SpL expr). pose (HSt := stmt_spl : SpL stmt).
    case s; intros;
    lazymatch goal with |- span_stmt (respan_stmt lf ?e) = _ =>
      let w := eval hnf in (respan_stmt lf e) in
      let t := eval cbn [span_stmt] in (span_stmt w) in
      let u := eval cbn [span_stmt] in (span_stmt e) in
      change (t = smap u); change span_expr with Sp_expr; change span_stmt with Sp_stmt; spleaf end.
Qed.
#[export] Instance SpL_expr : SpL expr := expr_spl.
#[export] Instance SpL_stmt : SpL stmt := stmt_spl.
End SpanMap.
