(** C25 (the [Spanned] implementations of src/*.rs): does the span of a node contain the spans of its parts?

    Every span stored anywhere below a node lies inside the span the node reports, except the
    spans stored in five fields that the [Spanned] implementations leave out. *)
From Verif Require Export PropsSafe.
Local Open Scope string_scope.
Local Open Scope list_scope.

(** ** Specification *)
(** The span [a] lies inside the span [b]. *)
Definition inside (a b : span) : Prop := fst b <= fst a /\ snd a <= snd b.
(** The spans stored in a node, at any depth. *)
Definition stored {A} {_ : Atoms A} (a : A) : list span := spans_in a.

(** The spans stored in the fields that the [span] methods leave out, at any depth. *)
Class Omits (A : Type) := omits : A -> list span.
(** Types all of whose fields are taken into account, themselves without parts that leave out fields. *)
Definition nothing {A : Type} : A -> list span := fun _ => [].

#[export] Instance Om_unit : Omits unit := nothing.
#[export] Instance Om_bool : Omits bool := nothing.
#[export] Instance Om_N : Omits N := nothing.
#[export] Instance Om_string : Omits string := nothing.
#[export] Instance Om_tok : Omits tok := nothing.
#[export] Instance Om_span : Omits span := nothing.
#[export] Instance Om_text : Omits text | 0 := nothing.
#[export] Instance Om_list_N : Omits (list N) | 0 := nothing.
#[export] Instance Om_ident : Omits ident := nothing.
#[export] Instance Om_sstring : Omits sstring := nothing.
#[export] Instance Om_N_span : Omits (N * span) | 0 := nothing.
#[export] Instance Om_time_unit_span : Omits (time_unit * span) | 0 := nothing.
#[export] Instance Om_func : Omits func := nothing.
#[export] Instance Om_variable : Omits variable := nothing.
#[export] Instance Om_binop : Omits binop := nothing.
#[export] Instance Om_is : Omits is_ := nothing.
#[export] Instance Om_unop : Omits unop := nothing.
#[export] Instance Om_tagged : Omits tagged := nothing.
#[export] Instance Om_argref : Omits argref := nothing.
#[export] Instance Om_invalid : Omits invalid := nothing.
#[export] Instance Om_idparts : Omits idparts := nothing.
#[export] Instance Om_stdin_data : Omits stdin_data := nothing.
#[export] Instance Om_option A (_ : Omits A) : Omits (option A) := fun o => match o with Some a => omits a | None => [] end.
#[export] Instance Om_prod A B (_ : Omits A) (_ : Omits B) : Omits (A * B) | 5 := fun p => omits (fst p) ++ omits (snd p).
#[export] Instance Om_list A (_ : Omits A) : Omits (list A) | 5 := flat_map omits.
(** Types that leave out no field of their own: what their parts leave out. *)
Ltac derive_omits_fields acc :=
  lazymatch goal with
  | |- forall _ : _, _ =>
      let x := fresh "x" in intro x;
      let acc' := constr:(app acc (omits x)) in derive_omits_fields acc'
  | |- _ => exact acc
  end.
Ltac derive_omits_case :=
  lazymatch goal with
  | |- forall _ : _, _ => let x := fresh "x" in intro x; let a := constr:(omits x) in derive_omits_fields a
  | |- _ => exact (@nil span)
  end.
Ltac derive_omits := let s := fresh "s" in intro s; case s; derive_omits_case.
#[export] Instance Om_qname : Omits (qname). derive_omits. Defined.
#[export] Instance Om_idpart : Omits (idpart). derive_omits. Defined.
#[export] Instance Om_order_flag : Omits (order_flag). derive_omits. Defined.
#[export] Instance Om_index_hint : Omits (index_hint). derive_omits. Defined.
#[export] Instance Om_lock_wait : Omits (lock_wait). derive_omits. Defined.
#[export] Instance Om_locking : Omits (locking). derive_omits. Defined.
#[export] Instance Om_timestamp : Omits (timestamp). derive_omits. Defined.
#[export] Instance Om_type_ : Omits (type_). derive_omits. Defined.
#[export] Instance Om_table_option : Omits (table_option). derive_omits. Defined.
#[export] Instance Om_create_option : Omits (create_option). derive_omits. Defined.
#[export] Instance Om_function_characteristic : Omits (function_characteristic). derive_omits. Defined.
#[export] Instance Om_create_type_enum : Omits (create_type_enum). derive_omits. Defined.
#[export] Instance Om_index_option : Omits (index_option). derive_omits. Defined.
#[export] Instance Om_foreign_key_on : Omits (foreign_key_on). derive_omits. Defined.
#[export] Instance Om_index_col : Omits (index_col). derive_omits. Defined.
#[export] Instance Om_drop_table : Omits (drop_table) := fun x => match x with mkDropTable drop temporary table if_exists tables cascade =>
  omits drop ++ omits temporary ++ omits table ++ omits if_exists ++ omits tables ++ stored cascade end.
#[export] Instance Om_drop_view : Omits (drop_view). derive_omits. Defined.
#[export] Instance Om_drop_q : Omits (drop_q). derive_omits. Defined.
#[export] Instance Om_drop_i : Omits (drop_i). derive_omits. Defined.
#[export] Instance Om_drop_index : Omits (drop_index). derive_omits. Defined.
#[export] Instance Om_truncate_table : Omits (truncate_table). derive_omits. Defined.
#[export] Instance Om_table_to_table : Omits (table_to_table). derive_omits. Defined.
#[export] Instance Om_rename_table : Omits (rename_table). derive_omits. Defined.
#[export] Instance Om_copy_ : Omits (copy_). derive_omits. Defined.
#[export] Instance Om_union_type : Omits (union_type). derive_omits. Defined.
#[export] Instance Om_on_conflict_target : Omits (on_conflict_target). derive_omits. Defined.
Section Types.
Variables E St : Type.
Context {AE : Atoms E} {ASt : Atoms St} {PE : Spanned E} {PSt : Spanned St} {DSt : DataStatement St} {OE : Omits E} {OSt : Omits St}.
#[export] Instance Om_dt_property : Omits (dt_property E). derive_omits. Defined.
#[export] Instance Om_data_type : Omits (data_type E). derive_omits. Defined.
#[export] Instance Om_when : Omits (when E). derive_omits. Defined.
#[export] Instance Om_select_expr : Omits (select_expr E). derive_omits. Defined.
#[export] Instance Om_join_spec : Omits (join_spec E). derive_omits. Defined.
Fixpoint omits_tref (t : tref E St) : list span :=
  match t with
  | TRTable q s a h => omits q ++ omits s ++ omits a ++ omits h
  | TRQuery q s a => omits q ++ omits s ++ omits a
  | TRJoin j l r s => omits j ++ omits_tref l ++ omits_tref r ++ omits s
  end.
#[export] Instance Om_tref : Omits (tref E St) := omits_tref.
#[export] Instance Om_select : Omits (select E St) := fun x => match x with mkSelect select flags exprs from tables where_ group_by having window order_by limit locking =>
  omits select ++ omits flags ++ omits exprs ++ omits from ++ omits tables ++ omits where_ ++ omits group_by ++ omits having ++ omits window ++ omits order_by ++ omits limit ++ stored locking end.
#[export] Instance Om_union_with : Omits (union_with St). derive_omits. Defined.
#[export] Instance Om_union_ : Omits (union_ E St). derive_omits. Defined.
#[export] Instance Om_block : Omits (block St). derive_omits. Defined.
#[export] Instance Om_set_ : Omits (set_ E). derive_omits. Defined.
#[export] Instance Om_if_condition : Omits (if_condition E St). derive_omits. Defined.
#[export] Instance Om_if_ : Omits (if_ E St). derive_omits. Defined.
#[export] Instance Om_return_ : Omits (return_ E). derive_omits. Defined.
#[export] Instance Om_signal : Omits (signal E). derive_omits. Defined.
#[export] Instance Om_when_statement : Omits (when_statement E St). derive_omits. Defined.
#[export] Instance Om_case_statement : Omits (case_statement E St). derive_omits. Defined.
#[export] Instance Om_create_definition : Omits (create_definition E). derive_omits. Defined.
#[export] Instance Om_create_table : Omits (create_table E). derive_omits. Defined.
#[export] Instance Om_create_view : Omits (create_view St). derive_omits. Defined.
#[export] Instance Om_create_function : Omits (create_function E St) := fun x => match x with mkCreateFunction create options function if_not_exists name params returns return_type characteristics return_ =>
  omits create ++ omits options ++ omits function ++ omits if_not_exists ++ omits name ++ stored params ++ stored returns ++ omits return_type ++ omits characteristics ++ omits return_ end.
#[export] Instance Om_create_trigger : Omits (create_trigger St). derive_omits. Defined.
#[export] Instance Om_create_index : Omits (create_index E) := fun x => match x with mkCreateIndex create options index name if_not_exists on table index_options lparen columns rparen where_ =>
  omits create ++ omits options ++ omits index ++ omits name ++ stored if_not_exists ++ omits on ++ omits table ++ omits index_options ++ omits lparen ++ omits columns ++ omits rparen ++ omits where_ end.
#[export] Instance Om_alter_column_action : Omits (alter_column_action E). derive_omits. Defined.
#[export] Instance Om_alter_specification : Omits (alter_specification E). derive_omits. Defined.
#[export] Instance Om_alter_table : Omits (alter_table E). derive_omits. Defined.
#[export] Instance Om_delete : Omits (delete E St). derive_omits. Defined.
#[export] Instance Om_update : Omits (update E St). derive_omits. Defined.
#[export] Instance Om_on_conflict_action : Omits (on_conflict_action E). derive_omits. Defined.
#[export] Instance Om_on_conflict : Omits (on_conflict E). derive_omits. Defined.
#[export] Instance Om_set_pair : Omits (set_pair E). derive_omits. Defined.
#[export] Instance Om_set_pairs : Omits (set_pairs E). derive_omits. Defined.
#[export] Instance Om_insert_replace : Omits (insert_replace E St) := fun x => match x with mkInsertReplace type flags into table columns values select set on_duplicate on_conflict returning =>
  omits type ++ omits flags ++ omits into ++ omits table ++ stored columns ++ omits values ++ omits select ++ omits set ++ omits on_duplicate ++ omits on_conflict ++ omits returning end.
#[export] Instance Om_with_block : Omits (with_block St). derive_omits. Defined.
#[export] Instance Om_with_query : Omits (with_query St). derive_omits. Defined.
End Types.
Fixpoint omits_expr (e : expr) {struct e} : list span
with omits_stmt (s : stmt) {struct s} : list span.
Proof.
  - pose (OE := omits_expr : Omits expr). pose (OSt := omits_stmt : Omits stmt). case e; derive_omits_case.
  - pose (OE := omits_expr : Omits expr). pose (OSt := omits_stmt : Omits stmt). case s; derive_omits_case.
Defined.
#[export] Instance Om_expr : Omits expr := omits_expr.
#[export] Instance Om_stmt : Omits stmt := omits_stmt.

(** ** Proof *)
Definition sp_of (l : list atom) : list span :=
  flat_map (fun x => match x with ASpan s | AIdent _ s | AText _ s | AArg _ s | AInvalid s | ALeaf _ s => [s] | AEmpty _ | AFeature _ _ => [] end) l.
Definition cov (x : sres) (s : span) : Prop :=
  match x with SPanic _ => True | SNone => False | SSome t => inside s t end.
Definition covers (x : sres) (l : list atom) (om : list span) : Prop :=
  forall s, In s (sp_of l) -> cov x s \/ In s om.
Definition under (x y : sres) : Prop := forall s, cov x s -> cov y s.
Lemma under_refl x : under x x. Proof. intros s H; exact H. Qed.
Lemma under_l x y z : under x y -> under x (jn y z).
Proof.
  intros H s K. specialize (H s K). destruct y as [| |t], z as [| |u]; cbn in *; auto; try tauto.
  unfold inside, join in *; cbn; lia.
Qed.
Lemma under_r x y z : under x z -> under x (jn y z).
Proof.
  intros H s K. specialize (H s K). destruct y as [| |t], z as [| |u]; cbn in *; auto; try tauto.
  unfold inside, join in *; cbn; lia.
Qed.
Lemma under_expect x w y : under x y -> under x (sexpect w y).
Proof. intros H s K. specialize (H s K). destruct y; cbn in *; auto. Qed.
Lemma under_trans x y z : under x y -> under y z -> under x z.
Proof. unfold under; auto. Qed.
Lemma covers_app x l l' om : covers x l om -> covers x l' om -> covers x (l ++ l') om.
Proof. intros H K s I. unfold sp_of in I. rewrite flat_map_app in I. apply in_app_or in I as [I|I]; auto. Qed.
Lemma covers_nil x om : covers x [] om. Proof. intros s []. Qed.
Lemma covers_mono x y l om om' : covers x l om -> under x y -> incl om om' -> covers y l om'.
Proof. intros H K I s J. destruct (H s J); auto. Qed.
Lemma covers_out x l om : incl (sp_of l) om -> covers x l om.
Proof. intros H s J. auto. Qed.
Lemma covers_one x (s : span) om a : sp_of [a] = [s] -> under (SSome s) x -> covers x [a] om.
Proof. intros H K t. rewrite H. intros [<-|[]]. left. apply K. cbn. unfold inside; lia. Qed.
Lemma covers_used x f y om : covers x (used f y) om.
Proof. destruct y; intros t I; cbn in I; tauto. Qed.
Lemma covers_feature x f s om : covers x [AFeature f s] om.
Proof. intros t []. Qed.
Lemma covers_key x t om : covers x (key_lock t) om.
Proof. unfold key_lock. destruct (_ || _); intros s []. Qed.
Lemma covers_replace x t l om : covers x (replace_flags t l) om.
Proof.
  unfold replace_flags. destruct (String.eqb _ _); [|intros s []]. intros s I. exfalso. induction l as [|g l IH]; [destruct I|]. cbn [flat_map] in I. unfold sp_of in I. rewrite flat_map_app in I.
  apply in_app_or in I as [I|I]; [|auto]. destruct (_ || _); destruct I.
Qed.
Lemma covers_source x T U c v s p om : covers x (@source_uses T U c v s p) om.
Proof. unfold source_uses. destruct p; [apply covers_used|]. destruct v, s; intros z []. Qed.
Lemma covers_join x a b om l : under (SSome a) x -> under (SSome b) x -> covers x [ALeaf l (join a b)] om.
Proof.
  intros H K t [<-|[]]. left. assert (cov x a) by (apply H; cbn; unfold inside; lia).
  assert (cov x b) by (apply K; cbn; unfold inside; lia). destruct x; cbn in *; auto. unfold inside, join in *; cbn; lia.
Qed.
Lemma covers_if x (b : bool) l l' om : covers x l om -> covers x l' om -> covers x (if b then l else l') om.
Proof. now destruct b. Qed.

Class Covered T {A : Atoms T} {S : Spanned T} {O : Omits T} := covered : forall a : T, covers (spn a) (atoms a) (omits a).
#[local] Hint Mode Covered ! - - - : typeclass_instances.
Ltac two := intros ? s I; cbn in I; left; repeat (destruct I as [<-|I]; [cbn; unfold inside; lia|]); destruct I.
#[export] Instance Cv_span : Covered span. Proof. two. Defined.
#[export] Instance Cv_ident : Covered ident. Proof. two. Defined.
#[export] Instance Cv_sstring : Covered sstring. Proof. two. Defined.
#[export] Instance Cv_tagged : Covered tagged. Proof. two. Defined.
#[export] Instance Cv_argref : Covered argref. Proof. two. Defined.
#[export] Instance Cv_invalid : Covered invalid. Proof. two. Defined.
#[export] Instance Cv_stdin : Covered stdin_data. Proof. two. Defined.
#[export] Instance Cv_Nspan : Covered (N * span) | 0. Proof. two. Defined.
#[export] Instance Cv_option T {A : Atoms T} {S : Spanned T} {O : Omits T} (_ : Covered T) : Covered (option T).
Proof. intros [a|]; [exact (H a)|apply covers_nil]. Defined.
Lemma fold_under {T} (f : T -> sres) l x : under x (fold_left (fun a b => jn a (f b)) l x).
Proof. revert x. induction l as [|a l IH]; intros x; cbn; [apply under_refl|]. eapply under_trans; [|apply IH]. apply under_l, under_refl. Qed.
#[export] Instance Cv_list T {A : Atoms T} {S : Spanned T} {O : Omits T} (_ : Covered T) : Covered (list T).
Proof.
  intros l. change (covers (fold_left (fun a b => jn a (spn b)) l SNone) (flat_map atoms l) (flat_map omits l)).
  refine ((fix go (l : list T) : forall x, covers (fold_left (fun a b => jn a (spn b)) l x) (flat_map atoms l) (flat_map omits l) :=
    match l with
    | [] => fun x => covers_nil _ _
    | a :: l' => fun x => covers_app _ _ _ _ (covers_mono _ _ _ _ _ (H a) (under_trans _ _ _ (under_r _ x _ (under_refl _)) (fold_under spn l' _)) (incl_appl _ (incl_refl _)))
                                  (covers_mono _ _ _ _ _ (go l' _) (under_refl _) (incl_appr _ (incl_refl _)))
    end) l SNone).
Defined.
#[export] Instance Cv_prod T U {A : Atoms T} {S : Spanned T} {O : Omits T} {A' : Atoms U} {S' : Spanned U} {O' : Omits U}
  (_ : Covered T) (_ : Covered U) : Covered (T * U).
Proof.
  intros [a c]. apply covers_app.
  - exact (covers_mono _ _ _ _ _ (H a) (under_l _ _ _ (under_refl _)) (incl_appl _ (incl_refl _))).
  - exact (covers_mono _ _ _ _ _ (H0 c) (under_r _ _ _ (under_refl _)) (incl_appr _ (incl_refl _))).
Defined.

Ltac und :=
  lazymatch goal with
  | |- under ?x (jn ?y ?z) => first [apply under_r; und | apply under_l; und]
  | |- under _ (sexpect _ _) => apply under_expect; und
  | |- under ?x ?y => exact (under_refl x)
  end.
Ltac inc := 
  lazymatch goal with
  | |- incl ?x (?y ++ ?z) => first [apply incl_appl; inc | apply incl_appr; inc]
  | |- incl [] _ => apply incl_nil_l
  | |- incl ?x ?y => first [exact (incl_refl x) | exact (incl_nil_l y)]
  end.
Ltac chunk :=
  lazymatch goal with
  | |- covers _ (_ ++ _) _ => apply covers_app; chunk
  | |- covers _ [] _ => apply covers_nil
  | |- covers _ (used _ _) _ => apply covers_used
  | |- covers _ (key_lock _) _ => apply covers_key
  | |- covers _ [AFeature _ _] _ => apply covers_feature
  | |- covers _ (replace_flags _ _) _ => apply covers_replace
  | |- covers _ (source_uses _ _ _ _) _ => apply covers_source
  | |- covers _ (if _ then _ else _) _ => apply covers_if; chunk
  | |- covers _ [ALeaf _ (join ?a ?b)] _ => apply covers_join; und
  | |- covers _ [_] _ => eapply covers_one; [reflexivity|]; und
  | |- covers _ (type_leaf ?t _) _ => destruct t; cbn [type_leaf]; chunk
  | |- covers _ (@atoms ?T ?I ?a) _ =>
      first [ apply covers_nil
            | let c := constr:(@covered T I _ _ _ a) in eapply (@covers_mono _ _ _ _ _ c); [und|inc]
            | apply covers_out; inc ]
  end.
Ltac exp_all :=
  lazymatch goal with
  | |- covers (@spn ?T ?I ?v) (@atoms ?T ?J ?w) (@omits ?T ?K ?u) =>
      let t1 := eval red in (@spn T I v) in let t2 := eval red in t1 in
      let a1 := eval red in (@atoms T J w) in let a2 := eval red in a1 in
      let o1 := eval red in (@omits T K u) in let o2 := eval red in o1 in
      change (covers t2 a2 o2)
  end.
Ltac derive_cov := let v := fresh "v" in intros v; case v; intros; exp_all; cbv beta iota; chunk.

#[export] Instance Cv_qname : Covered (qname). Proof. derive_cov. Defined.
#[export] Instance Cv_idpart : Covered (idpart). Proof. derive_cov. Defined.
#[export] Instance Cv_order_flag : Covered (order_flag). Proof. derive_cov. Defined.
#[export] Instance Cv_index_hint : Covered (index_hint). Proof. derive_cov. Defined.
#[export] Instance Cv_lock_wait : Covered (lock_wait). Proof. derive_cov. Defined.
#[export] Instance Cv_locking : Covered (locking). Proof. derive_cov. Defined.
#[export] Instance Cv_timestamp : Covered (timestamp). Proof. derive_cov. Defined.
#[export] Instance Cv_type_ : Covered (type_). Proof. derive_cov. Defined.
#[export] Instance Cv_table_option : Covered (table_option). Proof. derive_cov. Defined.
#[export] Instance Cv_create_option : Covered (create_option). Proof. derive_cov. Defined.
#[export] Instance Cv_function_characteristic : Covered (function_characteristic). Proof. derive_cov. Defined.
#[export] Instance Cv_create_type_enum : Covered (create_type_enum). Proof. derive_cov. Defined.
#[export] Instance Cv_index_option : Covered (index_option). Proof. derive_cov. Defined.
#[export] Instance Cv_foreign_key_on : Covered (foreign_key_on). Proof. derive_cov. Defined.
#[export] Instance Cv_index_col : Covered (index_col). Proof. derive_cov. Defined.
#[export] Instance Cv_drop_table : Covered (drop_table). Proof. derive_cov. Defined.
#[export] Instance Cv_drop_view : Covered (drop_view). Proof. derive_cov. Defined.
#[export] Instance Cv_drop_q : Covered (drop_q). Proof. derive_cov. Defined.
#[export] Instance Cv_drop_i : Covered (drop_i). Proof. derive_cov. Defined.
#[export] Instance Cv_drop_index : Covered (drop_index). Proof. derive_cov. Defined.
#[export] Instance Cv_truncate_table : Covered (truncate_table). Proof. derive_cov. Defined.
#[export] Instance Cv_table_to_table : Covered (table_to_table). Proof. derive_cov. Defined.
#[export] Instance Cv_rename_table : Covered (rename_table). Proof. derive_cov. Defined.
#[export] Instance Cv_copy_ : Covered (copy_). Proof. derive_cov. Defined.
#[export] Instance Cv_union_type : Covered (union_type). Proof. derive_cov. Defined.
#[export] Instance Cv_on_conflict_target : Covered (on_conflict_target). Proof. derive_cov. Defined.

#[export] Instance Cv_idparts : Covered idparts.
Proof.
  intros [[|a l]].
  - intros s [].
  - change (covers (sexpect PSpanOfIdentifierParts (spn (a :: l))) (atoms (a :: l)) (nothing (mkParts (a :: l)))).
    eapply covers_mono; [exact (covered (a :: l))|apply under_expect, under_refl|].
    intros s H. apply in_flat_map in H as (x & _ & H). destruct x; destruct H.
Defined.
Section Types.
Variables E St : Type.
Context {AE : Atoms E} {ASt : Atoms St} {PE : Spanned E} {PSt : Spanned St} {DSt : DataStatement St} {OE : Omits E} {OSt : Omits St}.
Context {HE : Covered E} {HSt : Covered St}.
#[export] Instance Cv_dt_property : Covered (dt_property E). Proof. derive_cov. Defined.
#[export] Instance Cv_data_type : Covered (data_type E). Proof. derive_cov. Defined.
#[export] Instance Cv_when : Covered (when E). Proof. derive_cov. Defined.
#[export] Instance Cv_select_expr : Covered (select_expr E). Proof. derive_cov. Defined.
#[export] Instance Cv_join_spec : Covered (join_spec E). Proof. derive_cov. Defined.
#[export] Instance Cv_tref : Covered (tref E St).
Proof.
  refine (fix go (t : tref E St) : covers (spn t) (atoms t) (omits t) := _). destruct t as [q s a h|q s a|j l r s].
  - change (covers (sexpect PSpanOfTable (jn (jn (jn (spn q) (spn s)) (spn a)) (spn h))) (atoms q ++ atoms s ++ atoms a ++ atoms h ++ used FIndexHint (spn h)) (omits q ++ omits s ++ omits a ++ omits h)). chunk.
  - change (covers (jn (jn (spn q) (spn s)) (spn a)) (atoms q ++ atoms s ++ atoms a) (omits q ++ omits s ++ omits a)). chunk.
  - change (covers (jn (jn (jn (spn j) (spn l)) (spn r)) (spn s)) (atoms j ++ atoms l ++ atoms r ++ atoms s) (omits j ++ omits l ++ omits r ++ omits s)).
    apply covers_app; [chunk|]. apply covers_app; [refine (covers_mono _ _ _ _ _ (go l) _ _); [und|inc]|].
    apply covers_app; [refine (covers_mono _ _ _ _ _ (go r) _ _); [und|inc]|chunk].
Defined.
#[export] Instance Cv_select : Covered (select E St). Proof. derive_cov. Defined.
#[export] Instance Cv_union_with : Covered (union_with St). Proof. derive_cov. Defined.
#[export] Instance Cv_union_ : Covered (union_ E St). Proof. derive_cov. Defined.
#[export] Instance Cv_block : Covered (block St).
Proof.
  intros [[|a l]]; [intros s []|].
  eapply covers_mono; [exact (covered (a :: l))|apply under_expect, under_refl|apply incl_refl].
Defined.
#[export] Instance Cv_set_ : Covered (set_ E). Proof. derive_cov. Defined.
#[export] Instance Cv_if_condition : Covered (if_condition E St). Proof. derive_cov. Defined.
#[export] Instance Cv_if_ : Covered (if_ E St). Proof. derive_cov. Defined.
#[export] Instance Cv_return_ : Covered (return_ E). Proof. derive_cov. Defined.
#[export] Instance Cv_signal : Covered (signal E). Proof. derive_cov. Defined.
#[export] Instance Cv_when_statement : Covered (when_statement E St). Proof. derive_cov. Defined.
#[export] Instance Cv_case_statement : Covered (case_statement E St). Proof. derive_cov. Defined.
#[export] Instance Cv_create_definition : Covered (create_definition E). Proof. derive_cov. Defined.
#[export] Instance Cv_create_table : Covered (create_table E). Proof. derive_cov. Defined.
#[export] Instance Cv_create_view : Covered (create_view St). Proof. derive_cov. Defined.
#[export] Instance Cv_create_function : Covered (create_function E St). Proof. derive_cov. Defined.
#[export] Instance Cv_create_trigger : Covered (create_trigger St). Proof. derive_cov. Defined.
#[export] Instance Cv_create_index : Covered (create_index E). Proof. derive_cov. Defined.
#[export] Instance Cv_alter_column_action : Covered (alter_column_action E). Proof. derive_cov. Defined.
#[export] Instance Cv_alter_specification : Covered (alter_specification E). Proof. derive_cov. Defined.
#[export] Instance Cv_alter_table : Covered (alter_table E). Proof. derive_cov. Defined.
#[export] Instance Cv_delete : Covered (delete E St). Proof. derive_cov. Defined.
Lemma set_under (l : list (list ident * E)) x : under x (fold_left (fun s ab => jn (jn s (spn (fst ab))) (spn (snd ab))) l x).
Proof. revert x. induction l as [|a l IH]; intros x; cbn; [apply under_refl|]. eapply under_trans; [|apply IH]. apply under_l, under_l, under_refl. Qed.
Lemma Cv_set (l : list (list ident * E)) : covers (fold_left (fun s ab => jn (jn s (spn (fst ab))) (spn (snd ab))) l SNone) (atoms l) (omits l).
Proof.
  change (covers (fold_left (fun s ab => jn (jn s (spn (fst ab))) (spn (snd ab))) l SNone) (flat_map atoms l) (flat_map omits l)).
  refine ((fix go (l : list (list ident * E)) : forall x, covers (fold_left (fun s ab => jn (jn s (spn (fst ab))) (spn (snd ab))) l x) (flat_map atoms l) (flat_map omits l) :=
    match l with
    | [] => fun x => covers_nil _ _
    | a :: l' => fun x => covers_app _ _ _ _ (covers_mono _ _ _ _ _ (covered a) (under_trans _ _ _ _ (set_under l' _)) (incl_appl _ (incl_refl _)))
                                  (covers_mono _ _ _ _ _ (go l' _) (under_refl _) (incl_appr _ (incl_refl _)))
    end) l SNone).
  intros s H. cbn [fst snd] in *. destruct a as [p q]. change (spn (p, q)) with (jn (spn p) (spn q)) in H.
  cbn [fst snd]. destruct x, (spn p), (spn q); cbn in *; auto; unfold inside, join in *; cbn in *; lia.
Defined.
#[export] Instance Cv_update : Covered (update E St).
Proof.
  intros v; case v; intros; exp_all; cbv beta iota.
  repeat (apply covers_app; [|first [chunk|idtac]]); try chunk.
  eapply covers_mono; [apply Cv_set|und|inc].
Defined.
#[export] Instance Cv_on_conflict_action : Covered (on_conflict_action E). Proof. derive_cov. Defined.
#[export] Instance Cv_on_conflict : Covered (on_conflict E). Proof. derive_cov. Defined.
#[export] Instance Cv_set_pair : Covered (set_pair E). Proof. derive_cov. Defined.
#[export] Instance Cv_set_pairs : Covered (set_pairs E). Proof. derive_cov. Defined.
#[export] Instance Cv_insert_replace : Covered (insert_replace E St). Proof. derive_cov. Defined.
#[export] Instance Cv_with_block : Covered (with_block St). Proof. derive_cov. Defined.
#[export] Instance Cv_with_query : Covered (with_query St). Proof. derive_cov. Defined.
End Types.


Lemma covers_same x l s om : (forall t, In t (sp_of l) -> t = s) -> under (SSome s) x -> covers x l om.
Proof. intros H K t I. left. apply H in I as ->. apply K. cbn. unfold inside; lia. Qed.
Ltac chunk' :=
  lazymatch goal with
  | |- covers _ (_ ++ _) _ => apply covers_app; chunk'
  | |- covers _ (atoms (?a, ?s)) _ =>
     first [chunk | apply (covers_same _ _ s); [let t := fresh in intros t; cbn; intuition congruence|und]]
  | |- _ => chunk
  end.
Fixpoint expr_covered (e : expr) {struct e} : covers (spn e) (atoms e) (omits e)
with stmt_covered (s : stmt) {struct s} : covers (spn s) (atoms s) (omits s).
Proof.
  - pose (HE := expr_covered : Covered expr). pose (HSt := stmt_covered : Covered stmt).
    case e; intros;
    lazymatch goal with |- covers (spn ?e) _ _ =>
      let t := eval cbn [atoms_expr expr_leaves] in (atoms_expr e) in
      let u := eval cbn [span_expr] in (span_expr e) in
      let o := eval cbn [omits_expr] in (omits_expr e) in
      change (covers u t o); change span_expr with Sp_expr; change span_stmt with Sp_stmt; change atoms_expr with Atoms_expr; change atoms_stmt with Atoms_stmt; change omits_expr with Om_expr; change omits_stmt with Om_stmt;
      repeat match goal with p : (_ * _)%type |- _ => destruct p end; cbn [fst snd];
      chunk' end.
  - pose (HE := expr_covered : Covered expr). pose (HSt := stmt_covered : Covered stmt).
    case s; intros;
    lazymatch goal with |- covers (spn ?e) _ _ =>
      let t := eval cbn [atoms_stmt] in (atoms_stmt e) in
      let u := eval cbn [span_stmt] in (span_stmt e) in
      let o := eval cbn [omits_stmt] in (omits_stmt e) in
      change (covers u t o); change span_expr with Sp_expr; change span_stmt with Sp_stmt; change atoms_expr with Atoms_expr; change atoms_stmt with Atoms_stmt; change omits_expr with Om_expr; change omits_stmt with Om_stmt;
      chunk' end.
Qed.

(** ** C25 *)
Lemma covered_by {T} {A : Atoms T} {S : Spanned T} {O : Omits T} (n : T) r t :
  covers (spn n) (atoms n) (omits n) -> spn n = SSome r -> In t (stored n) -> inside t r \/ In t (omits n).
Proof. intros H R I. specialize (H t I). now rewrite R in H. Qed.
#[local] Instance inside_join r : join_closed (fun s => inside s r).
Proof. intros a b. unfold inside, join; cbn; lia. Qed.

(** Statements and expressions, whatever their shape: a span stored anywhere in the node lies
    inside the span of the node, unless it is stored in a field that is left out. *)
Theorem C25_statement_partial : forall (n : stmt) r t,
  spn n = SSome r -> In t (stored n) -> inside t r \/ In t (omits n).
Proof. intros n r t. apply covered_by, stmt_covered. Qed.
Theorem C25_expression_partial : forall (n : expr) r t,
  spn n = SSome r -> In t (stored n) -> inside t r \/ In t (omits n).
Proof. intros n r t. apply covered_by, expr_covered. Qed.
(** A node's parts, for any node type [T] whose spans are all below [n]: if [n] leaves nothing out,
    the span of the part lies inside the span of the node. *)
Lemma part_inside (n_atoms : list atom) x {T} {A : Atoms T} {S : Spanned T} r s (c : T) :
  (forall t, In t (sp_of n_atoms) -> inside t r) -> x = SSome r ->
  (Forall (aspans (fun s => inside s r) (fun _ => True)) (atoms c) -> sok (fun s => inside s r) (fun _ => True) (spn c)) ->
  incl (atoms c) n_atoms -> spn c = SSome s -> inside s r.
Proof.
  intros H _ Hc Hi E. assert (K : Forall (aspans (fun s => inside s r) (fun _ => True)) (atoms c)).
  { apply Forall_forall. intros a Ha. assert (J : forall t, In t (sp_of [a]) -> inside t r).
    { intros t Ht. apply H. unfold sp_of in *. apply in_flat_map. exists a. split; [now apply Hi|]. cbn in Ht. now rewrite app_nil_r in Ht. }
    destruct a; cbn in *; auto. }
  specialize (Hc K). now rewrite E in Hc.
Qed.
(** The expressions, statements, names, tables, types, ... below a statement that leaves nothing out. *)
Theorem C25_parts_partial : forall (n : stmt) r, spn n = SSome r -> omits n = [] ->
  (forall (e : expr) s, incl (atoms e) (atoms n) -> spn e = SSome s -> inside s r) /\
  (forall (c : stmt) s, incl (atoms c) (atoms n) -> spn c = SSome s -> inside s r) /\
  (forall (c : select expr stmt) s, incl (atoms c) (atoms n) -> spn c = SSome s -> inside s r) /\
  (forall (c : select_expr expr) s, incl (atoms c) (atoms n) -> spn c = SSome s -> inside s r) /\
  (forall (c : tref expr stmt) s, incl (atoms c) (atoms n) -> spn c = SSome s -> inside s r) /\
  (forall (c : data_type expr) s, incl (atoms c) (atoms n) -> spn c = SSome s -> inside s r) /\
  (forall (c : create_definition expr) s, incl (atoms c) (atoms n) -> spn c = SSome s -> inside s r) /\
  (forall (c : alter_specification expr) s, incl (atoms c) (atoms n) -> spn c = SSome s -> inside s r) /\
  (forall (c : qname) s, incl (atoms c) (atoms n) -> spn c = SSome s -> inside s r).
Proof.
  intros n r R O.
  assert (H : forall t, In t (sp_of (atoms n)) -> inside t r).
  { intros t Ht. destruct (C25_statement_partial n r t R Ht) as [?|K]; [assumption|]. rewrite O in K. destruct K. }
  assert (HE : @SpOk (fun s => inside s r) (fun _ => True) expr _ _) by exact (expr_spok _ _).
  assert (HS : @SpOk (fun s => inside s r) (fun _ => True) stmt _ _) by exact (stmt_spok _ _).
  repeat match goal with |- _ /\ _ => split end; intros c s Ic Ec;
    (eapply (part_inside _ _ r s c H R); [|exact Ic|exact Ec]; apply spok; typeclasses eauto).
Qed.
(** The one clause of SELECT that is left out, the one of DROP TABLE, and, when an INSERT has no
    rows (which is an Error), the columns. *)
Theorem C25_refuted :
  let bad d src := match parse_statement_api (txt src) [] (mkOptions d ArgNone false false false) with
    | Returns (Some n) out => errors out = [] /\ exists r t, spn n = SSome r /\ In t (stored n) /\ ~ inside t r
    | _ => False end in
  bad MariaDB "SELECT 1 FROM t FOR UPDATE" /\ bad PostgreSQL "DROP TABLE t CASCADE".
Proof.
  split.
  - vm_compute. split; [reflexivity|]. exists (0, 15), (16, 19). split; [reflexivity|]. split; [tauto|]. lia.
  - vm_compute. split; [reflexivity|]. exists (0, 12), (13, 20). split; [reflexivity|]. split; [tauto|]. lia.
Qed.
Example C25_applies :
  match parse_statement_api (txt "SELECT a.b, CAST(c AS INT) FROM t AS u JOIN v ON w = 1 WHERE EXISTS (SELECT 1) ORDER BY x LIMIT 5") [] default_options with
  | Returns (Some n) out => spn n = SSome (0, 97) /\ omits n = [] /\ length (stored n) = 30 | _ => False end.
Proof. vm_compute. repeat split. Qed.
