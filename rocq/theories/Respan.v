(** C56: the AST with other positions.

    [respan f x] is [x] with every span [s] in it replaced by [f s], and nothing else changed.  (Written by
    tools/gen_respan.py from Ast.v: one equation per constructor.) *)
From Verif Require Export Ast.
Local Open Scope list_scope.

Class Respan (A : Type) := respan : (span -> span) -> A -> A.
#[export] Instance Rs_unit : Respan unit := fun _ x => x.
#[export] Instance Rs_bool : Respan bool := fun _ x => x.
#[export] Instance Rs_N : Respan N := fun _ x => x.
#[export] Instance Rs_string : Respan string := fun _ x => x.
#[export] Instance Rs_text : Respan text | 0 := fun _ x => x.
#[export] Instance Rs_listN : Respan (list N) | 0 := fun _ x => x.
#[export] Instance Rs_tok : Respan tok := fun _ x => x.
#[export] Instance Rs_unit_ : Respan time_unit := fun _ x => x.
#[export] Instance Rs_func : Respan func := fun _ x => x.
#[export] Instance Rs_variable : Respan variable := fun _ x => x.
#[export] Instance Rs_binop : Respan binop := fun _ x => x.
#[export] Instance Rs_is : Respan is_ := fun _ x => x.
#[export] Instance Rs_unop : Respan unop := fun _ x => x.
#[export] Instance Rs_ctl : Respan ctl := fun _ x => x.
#[export] Instance Rs_span : Respan span | 0 := fun f s => f s.
#[export] Instance Rs_option A (_ : Respan A) : Respan (option A) := fun f o => match o with Some a => Some (respan f a) | None => None end.
#[export] Instance Rs_prod A B (_ : Respan A) (_ : Respan B) : Respan (A * B) | 5 := fun f x => match x with (a, b) => (respan f a, respan f b) end.
#[export] Instance Rs_sum A B (_ : Respan A) (_ : Respan B) : Respan (A + B) := fun f x => match x with inl a => inl (respan f a) | inr b => inr (respan f b) end.
#[export] Instance Rs_list A (_ : Respan A) : Respan (list A) | 5 := fun f => List.map (respan f).
#[export] Instance Rs_ident : Respan ident := fun f x => match x with mkIdent x1 x2 => mkIdent (respan f x1) (respan f x2) end.
#[export] Instance Rs_sstring : Respan sstring := fun f x => match x with mkSString x1 x2 => mkSString (respan f x1) (respan f x2) end.
#[export] Instance Rs_tagged : Respan tagged := fun f x => match x with mkTag x1 x2 => mkTag (respan f x1) (respan f x2) end.
#[export] Instance Rs_qname : Respan qname := fun f x => match x with mkQName x1 x2 => mkQName (respan f x1) (respan f x2) end.
#[export] Instance Rs_argref : Respan argref := fun f x => match x with mkArg x1 x2 => mkArg (respan f x1) (respan f x2) end.
#[export] Instance Rs_invalid : Respan invalid := fun f x => match x with mkInvalid x1 => mkInvalid (respan f x1) end.
#[export] Instance Rs_idpart : Respan idpart := fun f x => match x with PName x1 => PName (respan f x1) | PStar x1 => PStar (respan f x1) end.
#[export] Instance Rs_idparts : Respan idparts := fun f x => match x with mkParts x1 => mkParts (respan f x1) end.
#[export] Instance Rs_order_flag : Respan order_flag := fun f x => match x with OAsc x1 => OAsc (respan f x1) | ODesc x1 => ODesc (respan f x1) | ONone => ONone end.
#[export] Instance Rs_index_hint : Respan index_hint := fun f x => match x with mkIndexHint x1 x2 x3 x4 x5 x6 => mkIndexHint (respan f x1) (respan f x2) (respan f x3) (respan f x4) (respan f x5) (respan f x6) end.
#[export] Instance Rs_lock_wait : Respan lock_wait := fun f x => match x with LWNoWait x1 => LWNoWait (respan f x1) | LWSkipLocked x1 => LWSkipLocked (respan f x1) | LWDefault => LWDefault end.
#[export] Instance Rs_locking : Respan locking := fun f x => match x with mkLocking x1 x2 x3 x4 => mkLocking (respan f x1) (respan f x2) (respan f x3) (respan f x4) end.
#[export] Instance Rs_timestamp : Respan timestamp := fun f x => match x with mkTimestamp x1 x2 => mkTimestamp (respan f x1) (respan f x2) end.
#[export] Instance Rs_type_ : Respan type_ := fun f x => match x with TyPlain x1 => TyPlain (respan f x1) | TyWidth x1 x2 => TyWidth (respan f x1) (respan f x2) | TyFloat x1 => TyFloat (respan f x1) | TyEnum x1 => TyEnum (respan f x1) | TySet x1 => TySet (respan f x1) | TyNumeric x1 x2 x3 => TyNumeric (respan f x1) (respan f x2) (respan f x3) | TyTimestamp x1 => TyTimestamp (respan f x1) | TyVarBinary x1 => TyVarBinary (respan f x1) | TyNamed x1 => TyNamed (respan f x1) | TyBit x1 x2 => TyBit (respan f x1) (respan f x2) end.
#[export] Instance Rs_table_option : Respan table_option := fun f x => match x with TOIdent x1 x2 x3 => TOIdent (respan f x1) (respan f x2) (respan f x3) | TOString x1 x2 x3 => TOString (respan f x1) (respan f x2) (respan f x3) | TOPlain x1 x2 => TOPlain (respan f x1) (respan f x2) end.
#[export] Instance Rs_create_option : Respan create_option := fun f x => match x with COTag x1 => COTag (respan f x1) | COAlgorithm x1 x2 => COAlgorithm (respan f x1) (respan f x2) | CODefiner x1 x2 x3 => CODefiner (respan f x1) (respan f x2) (respan f x3) | COSecurity x1 x2 x3 => COSecurity (respan f x1) (respan f x2) (respan f x3) end.
#[export] Instance Rs_function_characteristic : Respan function_characteristic := fun f x => match x with FCTag x1 => FCTag (respan f x1) | FCComment x1 => FCComment (respan f x1) end.
#[export] Instance Rs_create_type_enum : Respan create_type_enum := fun f x => match x with mkCreateTypeEnum x1 x2 x3 x4 x5 x6 => mkCreateTypeEnum (respan f x1) (respan f x2) (respan f x3) (respan f x4) (respan f x5) (respan f x6) end.
#[export] Instance Rs_index_option : Respan index_option := fun f x => match x with IOTag x1 => IOTag (respan f x1) | IOComment x1 => IOComment (respan f x1) end.
#[export] Instance Rs_foreign_key_on : Respan foreign_key_on := fun f x => match x with mkFKOn x1 x2 => mkFKOn (respan f x1) (respan f x2) end.
#[export] Instance Rs_index_col : Respan index_col := fun f x => match x with mkIndexCol x1 x2 => mkIndexCol (respan f x1) (respan f x2) end.
#[export] Instance Rs_drop_table : Respan drop_table := fun f x => match x with mkDropTable x1 x2 x3 x4 x5 x6 => mkDropTable (respan f x1) (respan f x2) (respan f x3) (respan f x4) (respan f x5) (respan f x6) end.
#[export] Instance Rs_drop_view : Respan drop_view := fun f x => match x with mkDropView x1 x2 x3 x4 x5 => mkDropView (respan f x1) (respan f x2) (respan f x3) (respan f x4) (respan f x5) end.
#[export] Instance Rs_drop_q : Respan drop_q := fun f x => match x with mkDropQ x1 x2 x3 x4 => mkDropQ (respan f x1) (respan f x2) (respan f x3) (respan f x4) end.
#[export] Instance Rs_drop_i : Respan drop_i := fun f x => match x with mkDropI x1 x2 x3 x4 => mkDropI (respan f x1) (respan f x2) (respan f x3) (respan f x4) end.
#[export] Instance Rs_drop_index : Respan drop_index := fun f x => match x with mkDropIndex x1 x2 x3 x4 x5 => mkDropIndex (respan f x1) (respan f x2) (respan f x3) (respan f x4) (respan f x5) end.
#[export] Instance Rs_truncate_table : Respan truncate_table := fun f x => match x with mkTruncate x1 x2 x3 => mkTruncate (respan f x1) (respan f x2) (respan f x3) end.
#[export] Instance Rs_table_to_table : Respan table_to_table := fun f x => match x with mkT2T x1 x2 x3 => mkT2T (respan f x1) (respan f x2) (respan f x3) end.
#[export] Instance Rs_rename_table : Respan rename_table := fun f x => match x with mkRename x1 x2 x3 => mkRename (respan f x1) (respan f x2) (respan f x3) end.
#[export] Instance Rs_copy_ : Respan copy_ := fun f x => match x with mkCopy x1 x2 x3 x4 x5 => mkCopy (respan f x1) (respan f x2) (respan f x3) (respan f x4) (respan f x5) end.
#[export] Instance Rs_stdin_data : Respan stdin_data := fun f x => match x with mkStdin x1 x2 => mkStdin (respan f x1) (respan f x2) end.
#[export] Instance Rs_union_type : Respan union_type := fun f x => match x with UTAll x1 => UTAll (respan f x1) | UTDistinct x1 => UTDistinct (respan f x1) | UTDefault => UTDefault end.
#[export] Instance Rs_on_conflict_target : Respan on_conflict_target := fun f x => match x with OCTColumns x1 => OCTColumns (respan f x1) | OCTConstraint x1 x2 => OCTConstraint (respan f x1) (respan f x2) | OCTNone => OCTNone end.

Section Types.
Variables E St : Type.
Context {RE : Respan E} {RSt : Respan St}.
#[export] Instance Rs_dt_property : Respan (dt_property E) := fun f x => match x with DPTag x1 => DPTag (respan f x1) | DPDefault x1 => DPDefault (respan f x1) | DPComment x1 => DPComment (respan f x1) | DPCharset x1 => DPCharset (respan f x1) | DPAs x1 x2 => DPAs (respan f x1) (respan f x2) | DPCheck x1 x2 => DPCheck (respan f x1) (respan f x2) end.
#[export] Instance Rs_data_type : Respan (data_type E) := fun f x => match x with mkDataType x1 x2 x3 => mkDataType (respan f x1) (respan f x2) (respan f x3) end.
#[export] Instance Rs_when : Respan (when E) := fun f x => match x with mkWhen x1 x2 x3 x4 => mkWhen (respan f x1) (respan f x2) (respan f x3) (respan f x4) end.
#[export] Instance Rs_select_expr : Respan (select_expr E) := fun f x => match x with mkSelectExpr x1 x2 => mkSelectExpr (respan f x1) (respan f x2) end.
#[export] Instance Rs_join_spec : Respan (join_spec E) := fun f x => match x with JOn x1 x2 => JOn (respan f x1) (respan f x2) | JUsing x1 x2 => JUsing (respan f x1) (respan f x2) end.
Fixpoint respan_tref (f : span -> span) (x : tref E St) : tref E St :=
  let RT : Respan (tref E St) := respan_tref in
  match x with TRTable x1 x2 x3 x4 => TRTable (respan f x1) (respan f x2) (respan f x3) (respan f x4) | TRQuery x1 x2 x3 => TRQuery (respan f x1) (respan f x2) (respan f x3) | TRJoin x1 x2 x3 x4 => TRJoin (respan f x1) (respan f x2) (respan f x3) (respan f x4) end.
#[export] Instance Rs_tref : Respan (tref E St) := respan_tref.
#[export] Instance Rs_select : Respan (select E St) := fun f x => match x with mkSelect x1 x2 x3 x4 x5 x6 x7 x8 x9 x10 x11 x12 => mkSelect (respan f x1) (respan f x2) (respan f x3) (respan f x4) (respan f x5) (respan f x6) (respan f x7) (respan f x8) (respan f x9) (respan f x10) (respan f x11) (respan f x12) end.
#[export] Instance Rs_union_with : Respan (union_with St) := fun f x => match x with mkUnionWith x1 x2 x3 => mkUnionWith (respan f x1) (respan f x2) (respan f x3) end.
#[export] Instance Rs_union_ : Respan (union_ E St) := fun f x => match x with mkUnion x1 x2 x3 x4 => mkUnion (respan f x1) (respan f x2) (respan f x3) (respan f x4) end.
#[export] Instance Rs_block : Respan (block St) := fun f x => match x with mkBlock x1 => mkBlock (respan f x1) end.
#[export] Instance Rs_set_ : Respan (set_ E) := fun f x => match x with mkSet x1 x2 => mkSet (respan f x1) (respan f x2) end.
#[export] Instance Rs_if_condition : Respan (if_condition E St) := fun f x => match x with mkIfCondition x1 x2 x3 x4 => mkIfCondition (respan f x1) (respan f x2) (respan f x3) (respan f x4) end.
#[export] Instance Rs_if_ : Respan (if_ E St) := fun f x => match x with mkIf x1 x2 x3 x4 => mkIf (respan f x1) (respan f x2) (respan f x3) (respan f x4) end.
#[export] Instance Rs_return_ : Respan (return_ E) := fun f x => match x with mkReturn x1 x2 => mkReturn (respan f x1) (respan f x2) end.
#[export] Instance Rs_signal : Respan (signal E) := fun f x => match x with mkSignal x1 x2 x3 x4 x5 x6 => mkSignal (respan f x1) (respan f x2) (respan f x3) (respan f x4) (respan f x5) (respan f x6) end.
#[export] Instance Rs_when_statement : Respan (when_statement E St) := fun f x => match x with mkWhenStatement x1 x2 x3 x4 => mkWhenStatement (respan f x1) (respan f x2) (respan f x3) (respan f x4) end.
#[export] Instance Rs_case_statement : Respan (case_statement E St) := fun f x => match x with mkCaseStatement x1 x2 x3 x4 x5 => mkCaseStatement (respan f x1) (respan f x2) (respan f x3) (respan f x4) (respan f x5) end.
#[export] Instance Rs_create_definition : Respan (create_definition E) := fun f x => match x with CDColumn x1 x2 => CDColumn (respan f x1) (respan f x2) | CDConstraint x1 x2 => CDConstraint (respan f x1) (respan f x2) end.
#[export] Instance Rs_create_table : Respan (create_table E) := fun f x => match x with mkCreateTable x1 x2 x3 x4 x5 x6 x7 => mkCreateTable (respan f x1) (respan f x2) (respan f x3) (respan f x4) (respan f x5) (respan f x6) (respan f x7) end.
#[export] Instance Rs_create_view : Respan (create_view St) := fun f x => match x with mkCreateView x1 x2 x3 x4 x5 x6 x7 => mkCreateView (respan f x1) (respan f x2) (respan f x3) (respan f x4) (respan f x5) (respan f x6) (respan f x7) end.
#[export] Instance Rs_create_function : Respan (create_function E St) := fun f x => match x with mkCreateFunction x1 x2 x3 x4 x5 x6 x7 x8 x9 x10 => mkCreateFunction (respan f x1) (respan f x2) (respan f x3) (respan f x4) (respan f x5) (respan f x6) (respan f x7) (respan f x8) (respan f x9) (respan f x10) end.
#[export] Instance Rs_create_trigger : Respan (create_trigger St) := fun f x => match x with mkCreateTrigger x1 x2 x3 x4 x5 x6 x7 x8 x9 x10 x11 => mkCreateTrigger (respan f x1) (respan f x2) (respan f x3) (respan f x4) (respan f x5) (respan f x6) (respan f x7) (respan f x8) (respan f x9) (respan f x10) (respan f x11) end.
#[export] Instance Rs_create_index : Respan (create_index E) := fun f x => match x with mkCreateIndex x1 x2 x3 x4 x5 x6 x7 x8 x9 x10 x11 x12 => mkCreateIndex (respan f x1) (respan f x2) (respan f x3) (respan f x4) (respan f x5) (respan f x6) (respan f x7) (respan f x8) (respan f x9) (respan f x10) (respan f x11) (respan f x12) end.
#[export] Instance Rs_alter_column_action : Respan (alter_column_action E) := fun f x => match x with ACSetDefault x1 x2 => ACSetDefault (respan f x1) (respan f x2) | ACTag x1 => ACTag (respan f x1) | ACType x1 x2 => ACType (respan f x1) (respan f x2) end.
#[export] Instance Rs_alter_specification : Respan (alter_specification E) := fun f x => match x with AddColumn x1 x2 x3 x4 => AddColumn (respan f x1) (respan f x2) (respan f x3) (respan f x4) | AddIndex x1 x2 x3 x4 x5 x6 x7 => AddIndex (respan f x1) (respan f x2) (respan f x3) (respan f x4) (respan f x5) (respan f x6) (respan f x7) | AddForeignKey x1 x2 x3 x4 x5 x6 x7 x8 x9 x10 => AddForeignKey (respan f x1) (respan f x2) (respan f x3) (respan f x4) (respan f x5) (respan f x6) (respan f x7) (respan f x8) (respan f x9) (respan f x10) | Modify x1 x2 x3 x4 => Modify (respan f x1) (respan f x2) (respan f x3) (respan f x4) | DropColumn x1 x2 x3 => DropColumn (respan f x1) (respan f x2) (respan f x3) | AlterColumn x1 x2 x3 => AlterColumn (respan f x1) (respan f x2) (respan f x3) | OwnerTo x1 x2 => OwnerTo (respan f x1) (respan f x2) end.
#[export] Instance Rs_alter_table : Respan (alter_table E) := fun f x => match x with mkAlterTable x1 x2 x3 x4 x5 x6 x7 => mkAlterTable (respan f x1) (respan f x2) (respan f x3) (respan f x4) (respan f x5) (respan f x6) (respan f x7) end.
#[export] Instance Rs_delete : Respan (delete E St) := fun f x => match x with mkDelete x1 x2 x3 x4 x5 x6 x7 => mkDelete (respan f x1) (respan f x2) (respan f x3) (respan f x4) (respan f x5) (respan f x6) (respan f x7) end.
#[export] Instance Rs_update : Respan (update E St) := fun f x => match x with mkUpdate x1 x2 x3 x4 x5 x6 x7 => mkUpdate (respan f x1) (respan f x2) (respan f x3) (respan f x4) (respan f x5) (respan f x6) (respan f x7) end.
#[export] Instance Rs_on_conflict_action : Respan (on_conflict_action E) := fun f x => match x with OCANothing x1 => OCANothing (respan f x1) | OCAUpdate x1 x2 x3 => OCAUpdate (respan f x1) (respan f x2) (respan f x3) end.
#[export] Instance Rs_on_conflict : Respan (on_conflict E) := fun f x => match x with mkOnConflict x1 x2 x3 => mkOnConflict (respan f x1) (respan f x2) (respan f x3) end.
#[export] Instance Rs_set_pair : Respan (set_pair E) := fun f x => match x with mkSetPair x1 x2 x3 => mkSetPair (respan f x1) (respan f x2) (respan f x3) end.
#[export] Instance Rs_set_pairs : Respan (set_pairs E) := fun f x => match x with mkSetPairs x1 x2 => mkSetPairs (respan f x1) (respan f x2) end.
#[export] Instance Rs_insert_replace : Respan (insert_replace E St) := fun f x => match x with mkInsertReplace x1 x2 x3 x4 x5 x6 x7 x8 x9 x10 x11 => mkInsertReplace (respan f x1) (respan f x2) (respan f x3) (respan f x4) (respan f x5) (respan f x6) (respan f x7) (respan f x8) (respan f x9) (respan f x10) (respan f x11) end.
#[export] Instance Rs_with_block : Respan (with_block St) := fun f x => match x with mkWithBlock x1 x2 x3 x4 x5 => mkWithBlock (respan f x1) (respan f x2) (respan f x3) (respan f x4) (respan f x5) end.
#[export] Instance Rs_with_query : Respan (with_query St) := fun f x => match x with mkWithQuery x1 x2 x3 => mkWithQuery (respan f x1) (respan f x2) (respan f x3) end.
End Types.

Fixpoint respan_expr (f : span -> span) (x : expr) {struct x} : expr :=
  let RE : Respan expr := respan_expr in
  let RSt : Respan stmt := respan_stmt in
  match x with
  | EBinary x1 x2 x3 x4 => EBinary (respan f x1) (respan f x2) (respan f x3) (respan f x4)
  | EUnary x1 x2 x3 => EUnary (respan f x1) (respan f x2) (respan f x3)
  | ESubquery x1 => ESubquery (respan f x1)
  | ENull x1 => ENull (respan f x1)
  | EBool x1 x2 => EBool (respan f x1) (respan f x2)
  | EString x1 => EString (respan f x1)
  | EInteger x1 => EInteger (respan f x1)
  | EListHack x1 => EListHack (respan f x1)
  | EFloat x1 => EFloat (respan f x1)
  | EFunction x1 x2 x3 => EFunction (respan f x1) (respan f x2) (respan f x3)
  | EWindowFunction x1 x2 x3 x4 x5 => EWindowFunction (respan f x1) (respan f x2) (respan f x3) (respan f x4) (respan f x5)
  | EIdentifier x1 => EIdentifier (respan f x1)
  | EInterval x1 x2 x3 => EInterval (respan f x1) (respan f x2) (respan f x3)
  | EArg x1 => EArg (respan f x1)
  | EExists x1 => EExists (respan f x1)
  | EExtract x1 x2 x3 x4 => EExtract (respan f x1) (respan f x2) (respan f x3) (respan f x4)
  | EIn x1 x2 x3 x4 => EIn (respan f x1) (respan f x2) (respan f x3) (respan f x4)
  | EIs x1 x2 x3 => EIs (respan f x1) (respan f x2) (respan f x3)
  | EInvalid x1 => EInvalid (respan f x1)
  | ECase x1 x2 x3 x4 x5 => ECase (respan f x1) (respan f x2) (respan f x3) (respan f x4) (respan f x5)
  | ECast x1 x2 x3 x4 => ECast (respan f x1) (respan f x2) (respan f x3) (respan f x4)
  | ECount x1 x2 x3 => ECount (respan f x1) (respan f x2) (respan f x3)
  | EGroupConcat x1 x2 x3 => EGroupConcat (respan f x1) (respan f x2) (respan f x3)
  | EVariable x1 x2 x3 x4 x5 => EVariable (respan f x1) (respan f x2) (respan f x3) (respan f x4) (respan f x5)
  | ETimestampAdd x1 x2 x3 x4 => ETimestampAdd (respan f x1) (respan f x2) (respan f x3) (respan f x4)
  | ETimestampDiff x1 x2 x3 x4 => ETimestampDiff (respan f x1) (respan f x2) (respan f x3) (respan f x4)
  end
with respan_stmt (f : span -> span) (x : stmt) {struct x} : stmt :=
  let RE : Respan expr := respan_expr in
  let RSt : Respan stmt := respan_stmt in
  match x with
  | SCreateIndex x1 => SCreateIndex (respan f x1)
  | SCreateTable x1 => SCreateTable (respan f x1)
  | SCreateView x1 => SCreateView (respan f x1)
  | SCreateTrigger x1 => SCreateTrigger (respan f x1)
  | SCreateFunction x1 => SCreateFunction (respan f x1)
  | SSelect x1 => SSelect (respan f x1)
  | SDelete x1 => SDelete (respan f x1)
  | SInsertReplace x1 => SInsertReplace (respan f x1)
  | SUpdate x1 => SUpdate (respan f x1)
  | SDropIndex x1 => SDropIndex (respan f x1)
  | SDropTable x1 => SDropTable (respan f x1)
  | SDropFunction x1 => SDropFunction (respan f x1)
  | SDropProcedure x1 => SDropProcedure (respan f x1)
  | SDropEvent x1 => SDropEvent (respan f x1)
  | SDropDatabase x1 => SDropDatabase (respan f x1)
  | SDropServer x1 => SDropServer (respan f x1)
  | SDropTrigger x1 => SDropTrigger (respan f x1)
  | SDropView x1 => SDropView (respan f x1)
  | SSet x1 => SSet (respan f x1)
  | SSignal x1 => SSignal (respan f x1)
  | SAlterTable x1 => SAlterTable (respan f x1)
  | SBlock x1 => SBlock (respan f x1)
  | SBegin x1 => SBegin (respan f x1)
  | SEnd x1 => SEnd (respan f x1)
  | SCommit x1 => SCommit (respan f x1)
  | SStartTransaction x1 => SStartTransaction (respan f x1)
  | SIf x1 => SIf (respan f x1)
  | SInvalid x1 => SInvalid (respan f x1)
  | SUnion x1 => SUnion (respan f x1)
  | SCase x1 => SCase (respan f x1)
  | SCopy x1 => SCopy (respan f x1)
  | SStdin x1 => SStdin (respan f x1)
  | SCreateTypeEnum x1 => SCreateTypeEnum (respan f x1)
  | SDo x1 => SDo (respan f x1)
  | STruncateTable x1 => STruncateTable (respan f x1)
  | SRenameTable x1 => SRenameTable (respan f x1)
  | SWithQuery x1 => SWithQuery (respan f x1)
  | SReturn x1 => SReturn (respan f x1)
  end.
#[export] Instance Rs_expr : Respan expr := respan_expr.
#[export] Instance Rs_stmt : Respan stmt := respan_stmt.
