(** The abstract syntax tree returned by the parser, its [Spanned]/[OptSpanned]
    implementations, and a generic enumeration of the "atoms" (spans,
    identifiers, argument numbers, placeholders) occurring in a value.

    Conventions.
    - A Rust enum all of whose constructors carry exactly one [Span] (flags, kinds
      of join, ...) is modelled by [tagged]: the constructor's name (qualified, if another enum has a
      constructor of the same name that is written differently) and the span.
    - [Box<T>] is [T]; [Vec<T>] is [list T]; [usize]/[u32]/[u64]/[i64] payloads are
      [N] (never negative in what the parser builds); [f64] is its literal text.
    - The AST types that refer to expressions and statements take them as
      parameters [E] and [St]; the knot is tied by [expr] and [stmt] at the end. *)
From Verif Require Export Parser.
Set Implicit Arguments.
Unset Strict Implicit.
Set Contextual Implicit.

(** ** Syntax that is not available everywhere *)
Inductive feature :=
| FIndexHint | FKeyLock | FCreateType | FUpdateReturning | FOnDuplicate | FOnConflict | FWith
| FPartialIndex | FDropIndexOn | FDropIndexNoOn | FAddColumnIfNotExists
| FWithStatement                  (* a statement in a WITH query that is not a data statement *)
| FWithMain                       (* the same, for the main statement *)
| FBacktick | FOpclass            (* not visible in the AST: names in backticks, operator classes of an index *)
| FReplaceFlag                    (* a flag of INSERT that REPLACE does not have *)
| FSetColumns                     (* a column list together with SET *)
| FNoRows.                        (* an INSERT or REPLACE without rows *)
(** The dialects that have it. *)
Definition feature_in (f : feature) (d : dialect) : bool :=
  match f with
  | FIndexHint | FOnDuplicate => is_maria d
  | FKeyLock | FCreateType | FUpdateReturning | FOnConflict | FWith | FOpclass => is_postgresql d
  | FPartialIndex | FDropIndexNoOn | FAddColumnIfNotExists => negb (is_maria d)
  | FDropIndexOn | FBacktick => negb (is_postgresql d)
  | FWithStatement | FWithMain | FReplaceFlag | FSetColumns | FNoRows => false
  end.
(** What is reported where it is not available. *)
Definition feature_message (f : feature) : string :=
  match f with
  | FIndexHint => "Index hints only supported by MariaDb"
  | FKeyLock => "Only support by PostgreSQL"
  | FCreateType => "CREATE TYPE only supported by postgresql"
  | FUpdateReturning => "Only support by postgesql"
  | FOnDuplicate => "Only support by mariadb"
  | FOnConflict => "Only support by postgesql"
  | FWith => "WITH statements only supported by postgresql"
  | FPartialIndex => "Partial indexes not supported"
  | FDropIndexOn => "On not supported for index drops in PostgreSQL"
  | FDropIndexNoOn => "On required for index drops in MariaDb"
  | FAddColumnIfNotExists => "IF NOT EXIST is not supported"
  | FWithStatement => "Only SELECT, INSERT, UPDATE or DELETE allowed within WITH query"
  | FWithMain => "Only SELECT, INSERT, UPDATE or DELETE allowed as WITH query"
  | FBacktick => "quoted identifiers not supported by postgresql"
  | FOpclass => "Opclasses not supporetd"
  | FReplaceFlag => "Not supported for replace"
  | FSetColumns => "Columns may not be used here"
  | FNoRows => ""                 (* some Error about an expected word *)
  end.

(** ** Enums of src/expression.rs *)
(** src/expression.rs:29-218 [Function]: constructor name, or [Other]. *)
Inductive func := FName (name : string) | FOther (t : text).
(** src/expression.rs:222-225 [Variable]. *)
Inductive variable := VTimeZone | VOther (t : text).
(** src/expression.rs:229-253 [BinaryOperator]. *)
Inductive binop := Or | Xor | And | Eq_ | NullSafeEq | GtEq | Gt_ | LtEq | Lt_ | Neq | ShiftLeft
| ShiftRight | BitAnd | BitOr | BitXor | Add | Subtract | Divide | Div | Mod | Mult | Like | NotLike.
(** src/expression.rs:257-266 [Is]. *)
Inductive is_ := IsNull | IsNotNull | IsTrue | IsNotTrue | IsFalse | IsNotFalse | IsUnknown | IsNotUnknown.
(** src/expression.rs:270-276 [UnaryOperator]. *)
Inductive unop := UBinary | UCollate | ULogicalNot | UMinus | UNot.
(** src/expression.rs:331-372 [TimeUnit]: the constructor's name. *)
Definition time_unit := string.

(** Leaves of the syntax tree whose meaning is fixed by the words written there. *)
Inductive leaf :=
| LTag (c : string)        (* constructor [c] of an enum whose constructors carry one span *)
| LBin (o : binop)         (* a binary operator *)
| LUn (o : unop)           (* a unary operator *)
| LIn (not_in : bool)      (* IN, NOT IN *)
| LIs (i : is_)            (* IS NULL, .. *)
| LBool (b : bool) | LNull
| LInt (n : N)             (* an integer literal *)
| LFloat (t : text)        (* a number with a period *)
| LStr (v : text)          (* a string literal, or several in a row *)
| LFunc (f : func)         (* the name of a function *)
| LUnit (u : string)       (* a time unit *)
| LVar (v : variable)      (* a system variable *)
| LType (c : string)       (* a data type *)
| LFkOn (c : string) | LFkAction (c : string) (* ON UPDATE, ON DELETE; what to do then *)
| LIndex (c : string)      (* the kind of an index *)
| LTableOption (c : string).  (* a table option *)

(** ** Atoms *)
Inductive atom :=
| ASpan (s : span)                (* a byte range *)
| AIdent (v : text) (s : span)    (* an [Identifier] *)
| AText (v : text) (s : span)     (* a piece of source text ([Statement::Stdin]) *)
| AArg (n : N) (s : span)         (* [Expression::Arg] or [Expression::ListHack] *)
| AInvalid (s : span)             (* [Expression::Invalid] or [Statement::Invalid] *)
| ALeaf (l : leaf) (s : span)      (* a leaf, and where it is written *)
| AFeature (f : feature) (s : span) (* syntax that not all dialects have, and where it would be reported *)
| AEmpty (w : panic).             (* an empty list whose [span] panics with [w] *)

Class Atoms (A : Type) := atoms : A -> list atom.
#[export] Instance Atoms_unit : Atoms unit := fun _ => [].
#[export] Instance Atoms_bool : Atoms bool := fun _ => [].
#[export] Instance Atoms_N : Atoms N := fun _ => [].
#[export] Instance Atoms_string : Atoms string := fun _ => [].
#[export] Instance Atoms_tok : Atoms tok := fun _ => [].
#[export] Instance Atoms_span : Atoms span := fun s => [ASpan s].
#[export] Instance Atoms_option A (_ : Atoms A) : Atoms (option A) :=
  fun o => match o with Some a => atoms a | None => [] end.
#[export] Instance Atoms_prod A B (_ : Atoms A) (_ : Atoms B) : Atoms (A * B) | 5 :=
  fun p => atoms (fst p) ++ atoms (snd p).
#[export] Instance Atoms_list A (_ : Atoms A) : Atoms (list A) | 5 := flat_map atoms.
#[export] Instance Atoms_listN : Atoms (list N) | 0 := fun _ => [].
#[export] Instance Atoms_text : Atoms text | 0 := fun _ => [].
#[export] Instance Atoms_ident : Atoms ident := fun i => [AIdent (id_value i) (id_span i)].
#[export] Instance Atoms_sstring : Atoms sstring := fun i => [ASpan (ss_span i); ALeaf (LStr (ss_value i)) (ss_span i)].
(** Numbers and time units, and where they are written. *)
#[export] Instance Atoms_Nspan : Atoms (N * span) | 0 := fun p => [ASpan (snd p); ALeaf (LInt (fst p)) (snd p)].
#[export] Instance Atoms_unit_span : Atoms (time_unit * span) | 0 := fun p => [ASpan (snd p); ALeaf (LUnit (fst p)) (snd p)].

#[export] Instance Atoms_func : Atoms func := fun _ => [].
#[export] Instance Atoms_variable : Atoms variable := fun _ => [].
#[export] Instance Atoms_binop : Atoms binop := fun _ => [].
#[export] Instance Atoms_is : Atoms is_ := fun _ => [].
#[export] Instance Atoms_unop : Atoms unop := fun _ => [].

(** Derive [Atoms] by concatenating the atoms of all fields. *)
Ltac derive_atoms_fields acc :=
  lazymatch goal with
  | |- forall _ : _, _ =>
      let x := fresh "x" in intro x;
      let acc' := constr:(app acc (atoms x)) in derive_atoms_fields acc'
  | |- _ => exact acc
  end.
Ltac derive_atoms_case :=
  lazymatch goal with
  | |- forall _ : _, _ => let x := fresh "x" in intro x; let a := constr:(atoms x) in derive_atoms_fields a
  | |- _ => exact (@nil atom)
  end.
Ltac derive_atoms := let s := fresh "s" in intro s; case s; derive_atoms_case.

(** ** Spans of AST values.  [SNone]: [opt_span] returned [None]; [SPanic]: an
    [expect] inside a [span] method failed. *)
Inductive sres := SPanic (w : panic) | SNone | SSome (s : span).
(** src/span.rs:19-48: [join_span] / [opt_join_span] on computed spans. *)
Definition jn (a b : sres) : sres :=
  match a with
  | SPanic w => SPanic w
  | SNone => b
  | SSome l => match b with
               | SPanic w => SPanic w
               | SNone => SSome l
               | SSome r => SSome (join l r)
               end
  end.
(** A use of a feature, at a computed span (if computing the span panics, a use all the same). *)
Definition used (f : feature) (x : sres) : list atom :=
  match x with SSome s => [AFeature f s] | SNone => [] | SPanic _ => [AFeature f (0, 0)] end.
(** [.expect(...)] on an [opt_span]. *)
Definition sexpect (w : panic) (a : sres) : sres := match a with SNone => SPanic w | _ => a end.

Class Spanned (A : Type) := spn : A -> sres.
Class DataStatement (A : Type) := is_data : A -> bool.
#[export] Instance Sp_span : Spanned span := SSome.
#[export] Instance Sp_ident : Spanned ident := fun i => SSome (id_span i).   (* src/identifier.rs:78-82 *)
#[export] Instance Sp_sstring : Spanned sstring := fun i => SSome (ss_span i). (* src/sstring.rs:46-50 *)
(** src/span.rs:67-74, 76-86. *)
#[export] Instance Sp_option A (_ : Spanned A) : Spanned (option A) :=
  fun o => match o with Some a => spn a | None => SNone end.
#[export] Instance Sp_list A (_ : Spanned A) : Spanned (list A) :=
  fun l => fold_left (fun a b => jn a (spn b)) l SNone.
(** src/span.rs:89-135 [(usize, S)], [(bool, S)], [(u64, S)], ... *)
#[export] Instance Sp_Npair A (_ : Spanned A) : Spanned (N * A) | 0 := fun p => spn (snd p).
#[export] Instance Sp_Boolpair A (_ : Spanned A) : Spanned (bool * A) | 0 := fun p => spn (snd p).
#[export] Instance Sp_Textpair A (_ : Spanned A) : Spanned (text * A) | 0 := fun p => spn (snd p).
(** src/span.rs:137-147 [(S, O)] and [(T1, T2, T3)]. *)
#[export] Instance Sp_prod A B (_ : Spanned A) (_ : Spanned B) : Spanned (A * B) | 5 :=
  fun p => jn (spn (fst p)) (spn (snd p)).

Infix "+++" := (fun a b => jn a (spn b)) (at level 50, left associativity, only parsing).

(** ** Leaf types *)
(** Enums whose constructors all carry one [Span]. *)
Record tagged := mkTag { tag : string; tag_span : span }.
#[export] Instance Atoms_tagged : Atoms tagged := fun t => [ASpan (tag_span t); ALeaf (LTag (tag t)) (tag_span t)].
#[export] Instance Sp_tagged : Spanned tagged := fun t => SSome (tag_span t).

(** src/qualified_name.rs:10-19 [QualifiedName]. *)
Record qname := mkQName { q_prefix : list (ident * span); q_ident : ident }.
#[export] Instance Atoms_qname : Atoms qname. derive_atoms. Defined.
#[export] Instance Sp_qname : Spanned qname := fun q => spn (q_ident q) +++ q_prefix q.

(** Payloads of [Expression::Arg] / [ListHack] and of the [Invalid] constructors. *)
Record argref := mkArg { arg_no : N; arg_span : span }.
#[export] Instance Atoms_argref : Atoms argref :=
  fun a => [AArg (arg_no a) (arg_span a); ASpan (arg_span a)].
#[export] Instance Sp_argref : Spanned argref := fun a => SSome (arg_span a).
Record invalid := mkInvalid { inv_span : span }.
#[export] Instance Atoms_invalid : Atoms invalid := fun a => [AInvalid (inv_span a); ASpan (inv_span a)].
#[export] Instance Sp_invalid : Spanned invalid := fun a => SSome (inv_span a).

(** src/expression.rs:280-292 [IdentifierPart]. *)
Inductive idpart := PName (i : ident) | PStar (s : span).
#[export] Instance Atoms_idpart : Atoms idpart. derive_atoms. Defined.
#[export] Instance Sp_idpart : Spanned idpart :=
  fun p => match p with PName i => spn i | PStar s => spn s end.
(** Payload of [Expression::Identifier]; its span is
    [v.opt_span().expect("Span of identifier parts")]. *)
Record idparts := mkParts { id_parts : list idpart }.
#[export] Instance Atoms_idparts : Atoms idparts := fun p =>
  match id_parts p with [] => [AEmpty PSpanOfIdentifierParts] | l => atoms l end.
#[export] Instance Sp_idparts : Spanned idparts := fun p =>
  sexpect PSpanOfIdentifierParts (spn (id_parts p)).
(** src/select.rs:505-518 [OrderFlag]; [None] is [Option]'s None. *)
Inductive order_flag := OAsc (s : span) | ODesc (s : span) | ONone.
#[export] Instance Atoms_order_flag : Atoms order_flag := fun f =>
  match f with OAsc s => [ALeaf (LTag "Asc") s] ++ atoms s | ODesc s => [ALeaf (LTag "Desc") s] ++ atoms s | ONone => [] end.
#[export] Instance Sp_order_flag : Spanned order_flag :=
  fun f => match f with OAsc s => spn s | ODesc s => spn s | ONone => SNone end.

(** src/select.rs:149-168 [IndexHint]. *)
Record index_hint := mkIndexHint {
  ih_use : tagged; ih_type : tagged; ih_for : option (span * tagged);
  ih_lparen : span; ih_list : list ident; ih_rparen : span }.
#[export] Instance Atoms_index_hint : Atoms index_hint. derive_atoms. Defined.
#[export] Instance Sp_index_hint : Spanned index_hint := fun h =>
  spn (ih_use h) +++ ih_type h +++ ih_for h +++ ih_lparen h +++ ih_list h +++ ih_rparen h.

(** src/select.rs:522-570 [LockStrength], [LockWait], [Locking]. *)
Inductive lock_wait := LWNoWait (s : span) | LWSkipLocked (s : span) | LWDefault.
#[export] Instance Atoms_lock_wait : Atoms lock_wait := fun f =>
  match f with LWNoWait s => [ALeaf (LTag "NoWait") s] ++ atoms s | LWSkipLocked s => [ALeaf (LTag "SkipLocked") s] ++ atoms s | LWDefault => [] end.
#[export] Instance Sp_lock_wait : Spanned lock_wait :=
  fun f => match f with LWNoWait s => spn s | LWSkipLocked s => spn s | LWDefault => SNone end.
Record locking := mkLocking {
  lk_for : span; lk_strength : tagged; lk_of : option (span * list ident); lk_wait : lock_wait }.
(** The lock strengths NO KEY UPDATE and KEY SHARE. *)
Definition key_lock (t : tagged) : list atom :=
  if String.eqb (tag t) "NoKeyUpdate" || String.eqb (tag t) "KeyShare" then [AFeature FKeyLock (tag_span t)] else [].
(** Flags that REPLACE does not have (src/insert_replace.rs:291-307). *)
Definition replace_flags (ty : tagged) (l : list tagged) : list atom :=
  if String.eqb (tag ty) "Replace" then
    flat_map (fun g => if String.eqb (tag g) "HighPriority" || String.eqb (tag g) "Ignore" then [AFeature FReplaceFlag (tag_span g)] else []) l
  else [].
#[export] Instance Atoms_locking : Atoms locking := fun l => match l with mkLocking a b c d =>
  (((atoms a ++ atoms b) ++ atoms c) ++ atoms d) ++ key_lock b end.
#[export] Instance Sp_locking : Spanned locking := fun l =>
  spn (lk_for l) +++ lk_strength l +++ lk_of l +++ lk_wait l.

(** src/data_type.rs:75-84 [Timestamp]. *)
Record timestamp := mkTimestamp { ts_width : option (N * span); ts_tz : option span }.
#[export] Instance Atoms_timestamp : Atoms timestamp. derive_atoms. Defined.
#[export] Instance Sp_timestamp : Spanned timestamp := fun t => spn (ts_width t) +++ ts_tz t.
(** src/data_type.rs:88-166 [Type].  [TyPlain c]: constructor [c] without payload;
    [TyWidth c w]: constructor [c] with payload [Option<(usize, Span)>];
    [TyFloat c]: [Float(None)] / [Double(None)], never built with a width. *)
Inductive type_ :=
| TyPlain (c : string)
| TyWidth (c : string) (w : option (N * span))
| TyFloat (c : string)
| TyEnum (v : list sstring)
| TySet (v : list sstring)
| TyNumeric (a b : N) (s : span)
| TyTimestamp (t : timestamp)
| TyVarBinary (w : N * span)
| TyNamed (s : span)
| TyBit (w : N) (s : span).
#[export] Instance Atoms_type : Atoms type_. derive_atoms. Defined.
(** The name of the type, at [s] (named types are spelled by any identifier). *)
Definition type_leaf (t : type_) (s : span) : list atom :=
  match t with
  | TyPlain c | TyWidth c _ | TyFloat c => [ALeaf (LType c) s]
  | TyEnum _ => [ALeaf (LType "Enum") s] | TySet _ => [ALeaf (LType "Set") s]
  | TyNumeric _ _ _ => [ALeaf (LType "Numeric") s] | TyTimestamp _ => [ALeaf (LType "Timestamp") s]
  | TyVarBinary _ => [ALeaf (LType "VarBinary") s] | TyBit _ _ => [ALeaf (LType "Bit") s]
  | TyNamed _ => []
  end.
#[export] Instance Sp_type : Spanned type_ := fun t =>
  match t with
  | TyPlain _ | TyFloat _ => SNone
  | TyWidth _ w => spn w
  | TyEnum v | TySet v => spn v
  | TyNumeric _ _ s => spn s
  | TyTimestamp t => spn t
  | TyVarBinary w => spn w
  | TyNamed s => spn s
  | TyBit _ s => spn s
  end.

(** src/create.rs:27-169 [TableOption] (the constructors the parser builds): by
    payload, with the constructor's name. *)
Inductive table_option :=
| TOIdent (c : string) (identifier : span) (value : ident)
| TOString (c : string) (identifier : span) (value : sstring)
| TOPlain (c : string) (identifier : span).
#[export] Instance Atoms_table_option : Atoms table_option := fun o =>
  match o with
  | TOIdent c s v => ([ALeaf (LTableOption c) s] ++ atoms s) ++ atoms v
  | TOString c s v => ([ALeaf (LTableOption c) s] ++ atoms s) ++ atoms v
  | TOPlain c s => [ALeaf (LTableOption c) s] ++ atoms s
  end.
#[export] Instance Sp_table_option : Spanned table_option := fun o =>
  match o with
  | TOIdent _ s v => spn s +++ v
  | TOString _ s v => spn s +++ v
  | TOPlain _ s => spn s
  end.

(** src/create.rs:202-248 [CreateAlgorithm], [CreateOption]. *)
Inductive create_option :=
| COTag (t : tagged)                      (* OrReplace, Temporary, Unique *)
| COAlgorithm (s : span) (a : tagged)
| CODefiner (definer : span) (user host : ident)
| COSecurity (c : string) (a b : span).  (* SqlSecurityDefiner, SqlSecurityUser *)
#[export] Instance Atoms_create_option : Atoms create_option := fun o =>
  match o with
  | COTag t => atoms t
  | COAlgorithm s a => atoms s ++ atoms a
  | CODefiner d u h => (atoms d ++ atoms u) ++ atoms h
  | COSecurity c a b => ([ALeaf (LTag c) (join a b)] ++ atoms a) ++ atoms b
  end.
#[export] Instance Sp_create_option : Spanned create_option := fun o =>
  match o with
  | COTag t => spn t
  | COAlgorithm s a => spn s +++ a
  | CODefiner d u h => spn d +++ u +++ h
  | COSecurity _ a b => spn a +++ b
  end.

(** src/create.rs:454-484 [FunctionCharacteristic]. *)
Inductive function_characteristic := FCTag (t : tagged) | FCComment (s : sstring).
#[export] Instance Atoms_fc : Atoms function_characteristic. derive_atoms. Defined.
#[export] Instance Sp_fc : Spanned function_characteristic :=
  fun f => match f with FCTag t => spn t | FCComment s => spn s end.

(** src/create.rs:906-930 [CreateTypeEnum]. *)
Record create_type_enum := mkCreateTypeEnum {
  cte_create : span; cte_options : list create_option; cte_type : span; cte_name : ident;
  cte_as_enum : span; cte_values : list sstring }.
#[export] Instance Atoms_cte : Atoms create_type_enum := fun c => match c with mkCreateTypeEnum a b c d e f =>
  (((((atoms a ++ atoms b) ++ atoms c) ++ atoms d) ++ atoms e) ++ atoms f) ++ used FCreateType (SSome c) end.
#[export] Instance Sp_cte : Spanned create_type_enum := fun c =>
  spn (cte_create c) +++ cte_options c +++ cte_type c +++ cte_name c +++ cte_as_enum c +++ cte_values c.

(** src/alter.rs:26-46 [IndexOption]; 110-134 [ForeignKeyOn], [IndexCol]. *)
Inductive index_option := IOTag (t : tagged) | IOComment (s : sstring).
#[export] Instance Atoms_io : Atoms index_option. derive_atoms. Defined.
#[export] Instance Sp_io : Spanned index_option :=
  fun f => match f with IOTag t => spn t | IOComment s => spn s end.
Record foreign_key_on := mkFKOn { fk_type : tagged; fk_action : tagged }.
#[export] Instance Atoms_fkon : Atoms foreign_key_on := fun f => match f with mkFKOn t a =>
  (([ALeaf (LFkOn (tag t)) (tag_span t)] ++ [ALeaf (LFkAction (tag a)) (tag_span a)]) ++ atoms t) ++ atoms a end.
#[export] Instance Sp_fkon : Spanned foreign_key_on := fun f => spn (fk_type f) +++ fk_action f.
Record index_col := mkIndexCol { ic_name : ident; ic_size : option (N * span) }.
#[export] Instance Atoms_index_col : Atoms index_col. derive_atoms. Defined.
#[export] Instance Sp_index_col : Spanned index_col := fun f => spn (ic_name f) +++ ic_size f.

(** src/drop.rs: [DropTable] 42-65, [DropView] 85-106, [DropDatabase] 127-145,
    [DropEvent] 165-183, [DropFunction], [DropProcedure], [DropServer],
    [DropTrigger], [DropIndex] 572-591. *)
Record drop_table := mkDropTable {
  dt_drop : span; dt_temporary : option span; dt_table : span; dt_if_exists : option span;
  dt_tables : list qname; dt_cascade : option span }.
#[export] Instance Atoms_drop_table : Atoms drop_table. derive_atoms. Defined.
#[export] Instance Sp_drop_table : Spanned drop_table := fun d =>
  spn (dt_drop d) +++ dt_temporary d +++ dt_table d +++ dt_if_exists d +++ dt_tables d.
Record drop_view := mkDropView {
  dv_drop : span; dv_temporary : option span; dv_view : span; dv_if_exists : option span;
  dv_views : list qname }.
#[export] Instance Atoms_drop_view : Atoms drop_view. derive_atoms. Defined.
#[export] Instance Sp_drop_view : Spanned drop_view := fun d =>
  spn (dv_drop d) +++ dv_temporary d +++ dv_view d +++ dv_if_exists d +++ dv_views d.
(** [DropEvent], [DropFunction], [DropProcedure], [DropTrigger] have the same shape. *)
Record drop_q := mkDropQ { dq_drop : span; dq_kind : span; dq_if_exists : option span; dq_name : qname }.
#[export] Instance Atoms_drop_q : Atoms drop_q. derive_atoms. Defined.
#[export] Instance Sp_drop_q : Spanned drop_q := fun d =>
  spn (dq_drop d) +++ dq_kind d +++ dq_if_exists d +++ dq_name d.
(** [DropDatabase], [DropServer]. *)
Record drop_i := mkDropI { di_drop : span; di_kind : span; di_if_exists : option span; di_name : ident }.
#[export] Instance Atoms_drop_i : Atoms drop_i. derive_atoms. Defined.
#[export] Instance Sp_drop_i : Spanned drop_i := fun d =>
  spn (di_drop d) +++ di_kind d +++ di_if_exists d +++ di_name d.
Record drop_index := mkDropIndex {
  dx_drop : span; dx_index : span; dx_if_exists : option span; dx_name : ident;
  dx_on : option (span * qname) }.
#[export] Instance Sp_drop_index : Spanned drop_index := fun d =>
  spn (dx_drop d) +++ dx_index d +++ dx_if_exists d +++ dx_name d +++ dx_on d.
#[export] Instance Atoms_drop_index : Atoms drop_index := fun x => match x with mkDropIndex a b c d e =>
  ((((atoms a ++ atoms b) ++ atoms c) ++ atoms d) ++ atoms e) ++ used (match e with Some _ => FDropIndexOn | None => FDropIndexNoOn end) (spn (mkDropIndex a b c d e)) end.

(** src/truncate.rs:19-37, src/rename.rs:9-56. *)
Record truncate_table := mkTruncate { tt_truncate : span; tt_table : option span; tt_name : qname }.
#[export] Instance Atoms_truncate : Atoms truncate_table. derive_atoms. Defined.
#[export] Instance Sp_truncate : Spanned truncate_table := fun d =>
  spn (tt_truncate d) +++ tt_table d +++ tt_name d.
Record table_to_table := mkT2T { t2t_table : qname; t2t_to : span; t2t_new : qname }.
#[export] Instance Atoms_t2t : Atoms table_to_table. derive_atoms. Defined.
#[export] Instance Sp_t2t : Spanned table_to_table := fun d => spn (t2t_table d) +++ t2t_to d +++ t2t_new d.
Record rename_table := mkRename { rn_rename : span; rn_table : option span; rn_list : list table_to_table }.
#[export] Instance Atoms_rename : Atoms rename_table. derive_atoms. Defined.
#[export] Instance Sp_rename : Spanned rename_table := fun d =>
  spn (rn_rename d) +++ rn_table d +++ rn_list d.

(** src/statement.rs:741-757 [Copy]. *)
Record copy_ := mkCopy { cp_copy : span; cp_table : ident; cp_columns : list ident; cp_from : span; cp_stdin : span }.
#[export] Instance Atoms_copy : Atoms copy_. derive_atoms. Defined.
#[export] Instance Sp_copy : Spanned copy_ := fun c =>
  spn (cp_copy c) +++ cp_table c +++ cp_columns c +++ cp_from c +++ cp_stdin c.
(** Payload of [Statement::Stdin]. *)
Record stdin_data := mkStdin { sd_text : text; sd_span : span }.
#[export] Instance Atoms_stdin : Atoms stdin_data := fun d => [AText (sd_text d) (sd_span d); ASpan (sd_span d)].
#[export] Instance Sp_stdin : Spanned stdin_data := fun d => spn (sd_span d).
(** src/statement.rs:683-697 [UnionType]. *)
Inductive union_type := UTAll (s : span) | UTDistinct (s : span) | UTDefault.
#[export] Instance Atoms_union_type : Atoms union_type := fun f =>
  match f with UTAll s => [ALeaf (LTag "All") s] ++ atoms s | UTDistinct s => [ALeaf (LTag "Distinct") s] ++ atoms s | UTDefault => [] end.
#[export] Instance Sp_union_type : Spanned union_type :=
  fun u => match u with UTAll s => spn s | UTDistinct s => spn s | UTDefault => SNone end.

(** src/insert_replace.rs:60-82 [OnConflictTarget]. *)
Inductive on_conflict_target :=
| OCTColumns (names : list ident)
| OCTConstraint (s : span) (name : ident)
| OCTNone.
#[export] Instance Atoms_oct : Atoms on_conflict_target. derive_atoms. Defined.
#[export] Instance Sp_oct : Spanned on_conflict_target := fun t =>
  match t with OCTColumns l => spn l | OCTConstraint s n => spn s +++ n | OCTNone => SNone end.

(** ** Types that contain expressions and statements *)
Section Types.
Variables E St : Type.
Context {AE : Atoms E} {ASt : Atoms St} {PE : Spanned E} {PSt : Spanned St}.

(** src/data_type.rs:26-72 [DataTypeProperty].  [DPTag]: the constructors with one span. *)
Inductive dt_property :=
| DPTag (t : tagged)
| DPDefault (e : E)
| DPComment (s : sstring)
| DPCharset (i : ident)
| DPAs (s : span) (e : E)
| DPCheck (s : span) (e : E).
#[export] Instance Atoms_dt_property : Atoms dt_property. derive_atoms. Defined.
#[export] Instance Sp_dt_property : Spanned dt_property := fun p =>
  match p with
  | DPTag t => spn t | DPDefault e => spn e | DPComment s => spn s | DPCharset i => spn i
  | DPAs s e => spn s +++ e | DPCheck s e => spn s +++ e
  end.
(** src/data_type.rs:170-185 [DataType]. *)
Record data_type := mkDataType { ty_identifier : span; ty_type : type_; ty_properties : list dt_property }.
#[export] Instance Atoms_data_type : Atoms data_type := fun d => match d with mkDataType s t l =>
  ((type_leaf t s ++ atoms s) ++ atoms t) ++ atoms l end.
#[export] Instance Sp_data_type : Spanned data_type := fun d =>
  spn (ty_identifier d) +++ ty_type d +++ ty_properties d.

(** src/expression.rs:296-314 [When]; 318-327 [WindowSpec]. *)
Record when := mkWhen { wh_when_span : span; wh_when : E; wh_then_span : span; wh_then : E }.
#[export] Instance Atoms_when : Atoms when. derive_atoms. Defined.
#[export] Instance Sp_when : Spanned when := fun w =>
  spn (wh_when_span w) +++ wh_when w +++ wh_then_span w +++ wh_then w.
Definition order_list := (span * list (E * order_flag))%type.
(** Span of "LIMIT", offset, count: [(Span, Option<Expression>, Expression)]. *)
Definition limit := (span * option E * E)%type.

(** src/select.rs:28-39 [SelectExpr]. *)
Record select_expr := mkSelectExpr { se_expr : E; se_as : option ident }.
#[export] Instance Atoms_select_expr : Atoms select_expr. derive_atoms. Defined.
#[export] Instance Sp_select_expr : Spanned select_expr := fun s => spn (se_expr s) +++ se_as s.
(** src/select.rs:55-69 [JoinSpecification]. *)
Inductive join_spec := JOn (e : E) (s : span) | JUsing (l : list ident) (s : span).
#[export] Instance Atoms_join_spec : Atoms join_spec. derive_atoms. Defined.
#[export] Instance Sp_join_spec : Spanned join_spec := fun j =>
  match j with JOn e s => spn s +++ e | JUsing l s => spn s +++ l end.
(** src/select.rs:172-236 [TableReference]. *)
Inductive tref :=
| TRTable (identifier : qname) (as_span : option span) (as_ : option ident) (hints : list index_hint)
| TRQuery (query : St) (as_span : option span) (as_ : option ident)
| TRJoin (join : tagged) (left right : tref) (specification : option join_spec).
Fixpoint atoms_tref (t : tref) : list atom :=
  match t with
  | TRTable q s a h => atoms q ++ atoms s ++ atoms a ++ atoms h ++ used FIndexHint (spn h)
  | TRQuery q s a => atoms q ++ atoms s ++ atoms a
  | TRJoin j l r s => atoms j ++ atoms_tref l ++ atoms_tref r ++ atoms s
  end.
#[export] Instance Atoms_tref : Atoms tref := atoms_tref.
Fixpoint span_tref (t : tref) : sres :=
  match t with
  | TRTable q s a h => sexpect PSpanOfTable (spn q +++ s +++ a +++ h)
  | TRQuery q s a => spn q +++ s +++ a
  | TRJoin j l r s => jn (jn (spn j) (span_tref l)) (span_tref r) +++ s
  end.
#[export] Instance Sp_tref : Spanned tref := span_tref.

(** src/select.rs:614-655 [Select]. *)
Record select := mkSelect {
  sl_select : span; sl_flags : list tagged; sl_exprs : list select_expr; sl_from : option span;
  sl_tables : option (list tref); sl_where : option (E * span); sl_group_by : option (span * list E);
  sl_having : option (E * span); sl_window : option span; sl_order_by : option order_list;
  sl_limit : option limit; sl_locking : option locking }.
#[export] Instance Atoms_select : Atoms select. derive_atoms. Defined.
#[export] Instance Sp_select : Spanned select := fun s =>
  spn (sl_select s) +++ sl_flags s +++ sl_exprs s +++ sl_from s +++ sl_tables s +++ sl_where s
  +++ sl_group_by s +++ sl_having s +++ sl_window s +++ sl_order_by s +++ sl_limit s.

(** src/statement.rs:701-738 [UnionWith], [Union]. *)
Record union_with := mkUnionWith { uw_span : span; uw_type : union_type; uw_statement : St }.
#[export] Instance Atoms_union_with : Atoms union_with. derive_atoms. Defined.
#[export] Instance Sp_union_with : Spanned union_with := fun u =>
  spn (uw_span u) +++ uw_type u +++ uw_statement u.
Record union_ := mkUnion {
  un_left : St; un_with : list union_with; un_order_by : option order_list; un_limit : option limit }.
#[export] Instance Atoms_union : Atoms union_. derive_atoms. Defined.
#[export] Instance Sp_union : Spanned union_ := fun u =>
  spn (un_left u) +++ un_with u +++ un_order_by u +++ un_limit u.

(** Payload of [Statement::Block] and [Statement::Do]; its span is
    [v.opt_span().expect("Span of block")]. *)
Record block := mkBlock { blk : list St }.
#[export] Instance Atoms_block : Atoms block := fun b =>
  match b with mkBlock l => match l with [] => [AEmpty PSpanOfBlock] | _ => atoms l end end.
#[export] Instance Sp_block : Spanned block := fun b =>
  match b with mkBlock l => sexpect PSpanOfBlock (spn l) end.

(** src/statement.rs:41-50 [Set]. *)
Record set_ := mkSet { set_span : span; set_values : list (ident * E) }.
#[export] Instance Atoms_set : Atoms set_. derive_atoms. Defined.
#[export] Instance Sp_set : Spanned set_ := fun s => spn (set_span s) +++ set_values s.
(** src/statement.rs:150-191 [IfCondition], [If]. *)
Record if_condition := mkIfCondition {
  if_elseif : option span; if_cond : E; if_then_span : span; if_then : list St }.
#[export] Instance Atoms_if_condition : Atoms if_condition. derive_atoms. Defined.
#[export] Instance Sp_if_condition : Spanned if_condition := fun c =>
  spn (if_then_span c) +++ if_elseif c +++ if_cond c +++ if_then_span c +++ if_then c.
Record if_ := mkIf { if_span : span; if_conditions : list if_condition;
                     if_else : option (span * list St); if_end : span }.
#[export] Instance Atoms_if : Atoms if_. derive_atoms. Defined.
#[export] Instance Sp_if : Spanned if_ := fun i =>
  spn (if_span i) +++ if_conditions i +++ if_else i +++ if_end i.
(** src/statement.rs:242-252 [Return]. *)
Record return_ := mkReturn { ret_span : span; ret_expr : E }.
#[export] Instance Atoms_return : Atoms return_. derive_atoms. Defined.
#[export] Instance Sp_return : Spanned return_ := fun r => spn (ret_span r) +++ ret_expr r.
(** src/statement.rs:261-315 [SignalConditionInformationName], [Signal]. *)
Record signal := mkSignal {
  sg_signal : span; sg_sqlstate : span; sg_value : option span; sg_state : E; sg_set : option span;
  sg_sets : list (tagged * span * E) }.
#[export] Instance Atoms_signal : Atoms signal. derive_atoms. Defined.
#[export] Instance Sp_signal : Spanned signal := fun s =>
  spn (sg_signal s) +++ sg_sqlstate s +++ sg_value s +++ sg_state s +++ sg_set s +++ sg_sets s.
(** src/statement.rs:533-576 [WhenStatement], [CaseStatement]. *)
Record when_statement := mkWhenStatement {
  ws_when_span : span; ws_when : E; ws_then_span : span; ws_then : list St }.
#[export] Instance Atoms_when_statement : Atoms when_statement. derive_atoms. Defined.
#[export] Instance Sp_when_statement : Spanned when_statement := fun w =>
  spn (ws_when_span w) +++ ws_when w +++ ws_then_span w +++ ws_then w.
Record case_statement := mkCaseStatement {
  cs_case : span; cs_value : option E; cs_whens : list when_statement;
  cs_else : option (span * list St); cs_end : span }.
#[export] Instance Atoms_case_statement : Atoms case_statement. derive_atoms. Defined.
#[export] Instance Sp_case_statement : Spanned case_statement := fun c =>
  spn (cs_case c) +++ cs_value c +++ cs_whens c +++ cs_else c +++ cs_end c.

(** src/create.rs:173-198 [CreateDefinition]. *)
Inductive create_definition :=
| CDColumn (i : ident) (d : data_type)
| CDConstraint (s : span) (i : ident).
#[export] Instance Atoms_create_definition : Atoms create_definition. derive_atoms. Defined.
#[export] Instance Sp_create_definition : Spanned create_definition := fun c =>
  match c with CDColumn i d => spn i +++ d | CDConstraint s i => spn s +++ i end.
(** src/create.rs:276-303 [CreateTable]; 331-358 [CreateView]. *)
Record create_table := mkCreateTable {
  ct_create : span; ct_options : list create_option; ct_table : span; ct_identifier : qname;
  ct_if_not_exists : option span; ct_definitions : list create_definition;
  ct_table_options : list table_option }.
#[export] Instance Atoms_create_table : Atoms create_table. derive_atoms. Defined.
#[export] Instance Sp_create_table : Spanned create_table := fun c =>
  spn (ct_create c) +++ ct_options c +++ ct_table c +++ ct_identifier c +++ ct_if_not_exists c
  +++ ct_definitions c +++ ct_table_options c.
Record create_view := mkCreateView {
  cv_create : span; cv_options : list create_option; cv_view : span; cv_if_not_exists : option span;
  cv_name : qname; cv_as : span; cv_select : St }.
#[export] Instance Atoms_create_view : Atoms create_view. derive_atoms. Defined.
#[export] Instance Sp_create_view : Spanned create_view := fun c =>
  spn (cv_create c) +++ cv_options c +++ cv_view c +++ cv_if_not_exists c +++ cv_name c +++ cv_as c
  +++ cv_select c.
(** src/create.rs:534-568 [CreateFunction]. *)
Record create_function := mkCreateFunction {
  cf_create : span; cf_options : list create_option; cf_function : span; cf_if_not_exists : option span;
  cf_name : ident; cf_params : list (option tagged * ident * data_type); cf_returns : span;
  cf_return_type : data_type; cf_characteristics : list function_characteristic;
  cf_return : option St }.
#[export] Instance Atoms_create_function : Atoms create_function. derive_atoms. Defined.
#[export] Instance Sp_create_function : Spanned create_function := fun c =>
  spn (cf_create c) +++ cf_options c +++ cf_function c +++ cf_if_not_exists c +++ cf_name c
  +++ cf_return_type c +++ cf_characteristics c +++ cf_return c.
(** src/create.rs:791-830 [CreateTrigger]. *)
Record create_trigger := mkCreateTrigger {
  tg_create : span; tg_options : list create_option; tg_trigger : span; tg_if_not_exists : option span;
  tg_name : ident; tg_time : tagged; tg_event : tagged; tg_on : span; tg_table : ident;
  tg_for_each_row : span; tg_statement : St }.
#[export] Instance Atoms_create_trigger : Atoms create_trigger. derive_atoms. Defined.
#[export] Instance Sp_create_trigger : Spanned create_trigger := fun c =>
  spn (tg_create c) +++ tg_options c +++ tg_trigger c +++ tg_if_not_exists c +++ tg_name c +++ tg_time c
  +++ tg_event c +++ tg_on c +++ tg_table c +++ tg_for_each_row c +++ tg_statement c.
(** src/create.rs:984-1013 [CreateIndex]. *)
Record create_index := mkCreateIndex {
  ci_create : span; ci_options : list create_option; ci_index : span; ci_name : ident;
  ci_if_not_exists : option span; ci_on : span; ci_table : qname; ci_index_options : list tagged;
  ci_lparen : span; ci_columns : list ident; ci_rparen : span; ci_where : option (span * E) }.
#[export] Instance Atoms_create_index : Atoms create_index := fun c => match c with mkCreateIndex a b c d e f g h i j k l =>
  (((((((((((atoms a ++ atoms b) ++ atoms c) ++ atoms d) ++ atoms e) ++ atoms f) ++ atoms g) ++ atoms h) ++ atoms i) ++ atoms j) ++ atoms k) ++ atoms l) ++ used FPartialIndex (spn l) end.
#[export] Instance Sp_create_index : Spanned create_index := fun c =>
  spn (ci_create c) +++ ci_options c +++ ci_index c +++ ci_name c +++ ci_on c +++ ci_table c
  +++ ci_index_options c +++ ci_lparen c +++ ci_columns c +++ ci_rparen c +++ ci_where c.

(** src/alter.rs:138-171 [AlterColumnAction]. *)
Inductive alter_column_action :=
| ACSetDefault (s : span) (value : E)
| ACTag (t : tagged)                       (* DropDefault, SetNotNull, DropNotNull *)
| ACType (s : span) (d : data_type).
#[export] Instance Atoms_aca : Atoms alter_column_action. derive_atoms. Defined.
#[export] Instance Sp_aca : Spanned alter_column_action := fun a =>
  match a with ACSetDefault s e => spn s +++ e | ACTag t => spn t | ACType s d => spn s +++ d end.
(** src/alter.rs:175-329 [AlterSpecification]. *)
Inductive alter_specification :=
| AddColumn (add_span : span) (if_not_exists : option span) (identifier : ident) (d : data_type)
| AddIndex (add_span : span) (index_type : tagged) (if_not_exists : option span) (name : option ident)
           (constraint : option (span * option ident)) (cols : list index_col)
           (index_options : list index_option)
| AddForeignKey (add_span : span) (constraint : option (span * option ident)) (foreign_key_span : span)
                (if_not_exists : option span) (name : option ident) (cols : list index_col)
                (references_span : span) (references_table : ident) (references_cols : list ident)
                (ons : list foreign_key_on)
| Modify (modify_span : span) (if_exists : option span) (col : ident) (definition : data_type)
| DropColumn (drop_column_span : span) (column : ident) (cascade : option span)
| AlterColumn (alter_column_span : span) (column : ident) (action : alter_column_action)
| OwnerTo (s : span) (owner : ident).
#[export] Instance Atoms_alter_spec : Atoms alter_specification := fun s =>
  match s with
  | AddColumn a b c d => (((atoms a ++ atoms b) ++ atoms c) ++ atoms d) ++ used FAddColumnIfNotExists (spn b)
  | AddIndex a b c d e f g => (((((([ALeaf (LIndex (tag b)) (tag_span b)] ++ atoms a) ++ atoms b) ++ atoms c) ++ atoms d) ++ atoms e) ++ atoms f) ++ atoms g
  | AddForeignKey a b c d e f g h i j =>
      ((((((((atoms a ++ atoms b) ++ atoms c) ++ atoms d) ++ atoms e) ++ atoms f) ++ atoms g) ++ atoms h) ++ atoms i) ++ atoms j
  | Modify a b c d => ((atoms a ++ atoms b) ++ atoms c) ++ atoms d
  | DropColumn a b c => (atoms a ++ atoms b) ++ atoms c
  | AlterColumn a b c => (atoms a ++ atoms b) ++ atoms c
  | OwnerTo a b => atoms a ++ atoms b
  end.
#[export] Instance Sp_alter_spec : Spanned alter_specification := fun a =>
  match a with
  | AddColumn a n i d => spn a +++ n +++ i +++ d
  | AddIndex a t n nm c cols o => spn a +++ t +++ n +++ nm +++ c +++ cols +++ o
  | AddForeignKey a c f n nm cols rs rt rc ons =>
      spn a +++ c +++ f +++ n +++ nm +++ cols +++ rs +++ rt +++ rc +++ ons
  | Modify m i c d => spn m +++ i +++ c +++ d
  | OwnerTo s o => spn s +++ o
  | DropColumn d c ca => spn d +++ c +++ ca
  | AlterColumn s c a => spn s +++ c +++ a
  end.
(** src/alter.rs:645-672 [AlterTable]. *)
Record alter_table := mkAlterTable {
  al_alter : span; al_online : option span; al_ignore : option span; al_table_span : span;
  al_if_exists : option span; al_table : qname; al_specs : list alter_specification }.
#[export] Instance Atoms_alter_table : Atoms alter_table. derive_atoms. Defined.
#[export] Instance Sp_alter_table : Spanned alter_table := fun a =>
  spn (al_alter a) +++ al_online a +++ al_ignore a +++ al_table_span a +++ al_if_exists a +++ al_table a
  +++ al_specs a.

(** src/delete.rs:68-95 [Delete]; src/update.rs:61-93 [Update]. *)
Record delete := mkDelete {
  dl_delete : span; dl_flags : list tagged; dl_from : span; dl_tables : list qname;
  dl_using : list tref; dl_where : option (E * span); dl_returning : option (span * list select_expr) }.
#[export] Instance Atoms_delete : Atoms delete. derive_atoms. Defined.
#[export] Instance Sp_delete : Spanned delete := fun d =>
  spn (dl_delete d) +++ dl_flags d +++ dl_from d +++ dl_tables d +++ dl_using d +++ dl_where d
  +++ dl_returning d.
Record update := mkUpdate {
  up_update : span; up_flags : list tagged; up_tables : list tref; up_set_span : span;
  up_set : list (list ident * E); up_where : option (E * span);
  up_returning : option (span * list select_expr) }.
#[export] Instance Atoms_update : Atoms update := fun u => match u with mkUpdate a b c d e f g =>
  ((((((atoms a ++ atoms b) ++ atoms c) ++ atoms d) ++ atoms e) ++ atoms f) ++ atoms g) ++ used FUpdateReturning (spn (option_map fst g)) end.
#[export] Instance Sp_update : Spanned update := fun u =>
  jn (spn (up_update u) +++ up_flags u +++ up_tables u +++ up_set_span u)
     (fold_left (fun s ab => jn (jn s (spn (fst ab))) (spn (snd ab))) (up_set u) SNone)
  +++ up_where u +++ up_returning u.

(** src/insert_replace.rs:85-258 [OnConflictAction], [OnConflict],
    [InsertReplaceSetPair], [InsertReplaceSet], [InsertReplaceOnDuplicateKeyUpdate],
    [InsertReplace]. *)
Inductive on_conflict_action :=
| OCANothing (s : span)
| OCAUpdate (s : span) (sets : list (ident * E)) (where_ : option (span * E)).
#[export] Instance Atoms_ocaction : Atoms on_conflict_action. derive_atoms. Defined.
#[export] Instance Sp_ocaction : Spanned on_conflict_action := fun a =>
  match a with OCANothing s => spn s | OCAUpdate s l w => spn s +++ l +++ w end.
Record on_conflict := mkOnConflict { oc_span : span; oc_target : on_conflict_target; oc_action : on_conflict_action }.
#[export] Instance Sp_on_conflict : Spanned on_conflict := fun c =>
  spn (oc_span c) +++ oc_target c +++ oc_action c.
#[export] Instance Atoms_on_conflict : Atoms on_conflict := fun c => match c with mkOnConflict a b c =>
  ((atoms a ++ atoms b) ++ atoms c) ++ used FOnConflict (spn (mkOnConflict a b c)) end.
Record set_pair := mkSetPair { pr_column : ident; pr_equal : span; pr_value : E }.
#[export] Instance Atoms_set_pair : Atoms set_pair. derive_atoms. Defined.
#[export] Instance Sp_set_pair : Spanned set_pair := fun p => spn (pr_column p) +++ pr_equal p +++ pr_value p.
(** [InsertReplaceSet] and [InsertReplaceOnDuplicateKeyUpdate] have the same shape. *)
Record set_pairs := mkSetPairs { sp_span : span; sp_pairs : list set_pair }.
#[export] Instance Atoms_set_pairs : Atoms set_pairs. derive_atoms. Defined.
#[export] Instance Sp_set_pairs : Spanned set_pairs := fun p => spn (sp_span p) +++ sp_pairs p.
Record insert_replace := mkInsertReplace {
  ir_type : tagged; ir_flags : list tagged; ir_into : option span; ir_table : qname;
  ir_columns : list ident; ir_values : option (span * list (list E)); ir_select : option select;
  ir_set : option set_pairs; ir_on_duplicate : option set_pairs; ir_on_conflict : option on_conflict;
  ir_returning : option (span * list select_expr) }.
(** A column list together with SET; no rows (where it is reported is not in the AST). *)
Definition source_uses (c : list ident) (v : option (span * list (list E))) (s : option select) (p : option set_pairs) : list atom :=
  match p with
  | Some _ => used FSetColumns (spn c)
  | None => match v, s with None, None => [AFeature FNoRows (0, 0)] | _, _ => [] end
  end.
#[export] Instance Atoms_insert_replace : Atoms insert_replace := fun i => match i with mkInsertReplace a b c d e f g h i j k =>
  ((((((((((((atoms a ++ atoms b) ++ atoms c) ++ atoms d) ++ atoms e) ++ atoms f) ++ atoms g) ++ atoms h) ++ atoms i) ++ atoms j) ++ atoms k) ++ used FOnDuplicate (spn i)) ++
    replace_flags a b) ++ source_uses e f g h end.
#[export] Instance Sp_insert_replace : Spanned insert_replace := fun i =>
  spn (ir_type i) +++ ir_flags i +++ ir_into i +++ ir_table i +++ ir_values i +++ ir_select i
  +++ ir_set i +++ ir_on_duplicate i +++ ir_on_conflict i +++ ir_returning i.

(** src/with_query.rs:12-70 [WithBlock], [WithQuery]. *)
Record with_block := mkWithBlock {
  wb_identifier : ident; wb_as : span; wb_lparen : span; wb_statement : St; wb_rparen : span }.
(** The data statements (src/with_query.rs:95-100). *)
Context {DSt : DataStatement St}.
#[export] Instance Atoms_with_block : Atoms with_block := fun b => match b with mkWithBlock a b c d e =>
  ((((atoms a ++ atoms b) ++ atoms c) ++ atoms d) ++ atoms e) ++ (if is_data d then [] else [AFeature FWithStatement b]) end.
#[export] Instance Sp_with_block : Spanned with_block := fun w =>
  spn (wb_identifier w) +++ wb_as w +++ wb_lparen w +++ wb_statement w +++ wb_rparen w.
Record with_query := mkWithQuery { wq_with : span; wq_blocks : list with_block; wq_statement : St }.
#[export] Instance Sp_with_query : Spanned with_query := fun w =>
  spn (wq_with w) +++ wq_blocks w +++ wq_statement w.
#[export] Instance Atoms_with_query : Atoms with_query := fun w => match w with mkWithQuery a b c =>
  (((atoms a ++ atoms b) ++ atoms c) ++ (if is_data c then [] else used FWithMain (spn c))) ++ used FWith (spn (mkWithQuery a b c)) end.
End Types.

(** ** Expressions and statements *)
(** src/expression.rs:402-670 [Expression]; src/statement.rs:386-471 [Statement]. *)
Inductive expr :=
| EBinary (op : binop) (op_span : span) (lhs rhs : expr)
| EUnary (op : unop) (op_span : span) (operand : expr)
| ESubquery (s : stmt)
| ENull (s : span)
| EBool (b : bool) (s : span)
| EString (s : sstring)
| EInteger (v : N * span)
| EListHack (a : argref)
| EFloat (v : text * span)
| EFunction (f : func) (args : list expr) (s : span)
| EWindowFunction (f : func) (args : list expr) (function_span over_span : span) (order_by : order_list expr)
| EIdentifier (parts : idparts)
| EInterval (interval_span : span) (time_interval : list N * span) (unit : time_unit * span)
| EArg (a : argref)
| EExists (s : stmt)
| EExtract (extract_span : span) (unit : time_unit * span) (from_span : span) (date : expr)
| EIn (lhs : expr) (rhs : list expr) (in_span : span) (not_in : bool)
| EIs (e : expr) (i : is_) (s : span)
| EInvalid (i : invalid)
| ECase (case_span : span) (value : option expr) (whens : list (when expr))
        (else_ : option (span * expr)) (end_span : span)
| ECast (cast_span : span) (e : expr) (as_span : span) (t : data_type expr)
| ECount (count_span : span) (distinct : option span) (e : expr)
| EGroupConcat (group_concat_span : span) (distinct : option span) (e : expr)
| EVariable (global session dot : option span) (v : variable) (variable_span : span)
| ETimestampAdd (s : span) (unit : time_unit * span) (interval datetime : expr)
| ETimestampDiff (s : span) (unit : time_unit * span) (e1 e2 : expr)
with stmt :=
| SCreateIndex (v : create_index expr)
| SCreateTable (v : create_table expr)
| SCreateView (v : create_view stmt)
| SCreateTrigger (v : create_trigger stmt)
| SCreateFunction (v : create_function expr stmt)
| SSelect (v : select expr stmt)
| SDelete (v : delete expr stmt)
| SInsertReplace (v : insert_replace expr stmt)
| SUpdate (v : update expr stmt)
| SDropIndex (v : drop_index)
| SDropTable (v : drop_table)
| SDropFunction (v : drop_q)
| SDropProcedure (v : drop_q)
| SDropEvent (v : drop_q)
| SDropDatabase (v : drop_i)
| SDropServer (v : drop_i)
| SDropTrigger (v : drop_q)
| SDropView (v : drop_view)
| SSet (v : set_ expr)
| SSignal (v : signal expr)
| SAlterTable (v : alter_table expr)
| SBlock (l : block stmt)
| SBegin (s : span)
| SEnd (s : span)
| SCommit (s : span)
| SStartTransaction (s : span)
| SIf (v : if_ expr stmt)
| SInvalid (i : invalid)
| SUnion (v : union_ expr stmt)
| SCase (v : case_statement expr stmt)
| SCopy (v : copy_)
| SStdin (d : stdin_data)
| SCreateTypeEnum (v : create_type_enum)
| SDo (l : block stmt)
| STruncateTable (v : truncate_table)
| SRenameTable (v : rename_table)
| SWithQuery (v : with_query stmt)
| SReturn (v : return_ expr).

(** src/expression.rs:559-670 [impl Spanned for Expression] and
    src/statement.rs:428-471 [impl Spanned for Statement]. *)
Fixpoint span_expr (e : expr) {struct e} : sres :=
  let PE : Spanned expr := span_expr in
  let PSt : Spanned stmt := span_stmt in
  match e with
  | EBinary _ s l r => spn s +++ l +++ r
  | EUnary _ s e => spn s +++ e
  | ESubquery s => spn s
  | ENull s => spn s
  | EBool _ s => spn s
  | EString s => spn s
  | EInteger v => spn v
  | EListHack a => spn a
  | EFloat v => spn v
  | EFunction _ args s => spn s +++ args
  | EWindowFunction _ args f o ob => spn f +++ args +++ o +++ ob
  | EIdentifier parts => spn parts
  | EInterval s ti u => spn s +++ snd ti +++ snd u
  | EArg a => spn a
  | EExists s => spn s
  | EExtract s u f d => spn s +++ snd u +++ f +++ d
  | EIn l r s _ => spn s +++ l +++ r
  | EIs e _ s => spn s +++ e
  | EInvalid i => spn i
  | ECase c v w e f => spn c +++ v +++ w +++ e +++ f
  | ECast c e a t => spn c +++ e +++ a +++ t
  | ECount c d e => spn c +++ d +++ e
  | EGroupConcat c d e => spn c +++ d +++ e
  | EVariable g s d _ v => spn v +++ g +++ s +++ d
  | ETimestampAdd s u a b => spn s +++ snd u +++ a +++ b
  | ETimestampDiff s u a b => spn s +++ snd u +++ a +++ b
  end
with span_stmt (s : stmt) {struct s} : sres :=
  let PE : Spanned expr := span_expr in
  let PSt : Spanned stmt := span_stmt in
  match s with
  | SCreateIndex v => spn v
  | SCreateTable v => spn v
  | SCreateView v => spn v
  | SCreateTrigger v => spn v
  | SCreateFunction v => spn v
  | SSelect v => spn v
  | SDelete v => spn v
  | SInsertReplace v => spn v
  | SUpdate v => spn v
  | SDropIndex v => spn v
  | SDropTable v => spn v
  | SDropFunction v => spn v
  | SDropProcedure v => spn v
  | SDropEvent v => spn v
  | SDropDatabase v => spn v
  | SDropServer v => spn v
  | SDropTrigger v => spn v
  | SDropView v => spn v
  | SSet v => spn v
  | SSignal v => spn v
  | SAlterTable v => spn v
  | SBlock l => spn l
  | SBegin s => spn s
  | SEnd s => spn s
  | SCommit s => spn s
  | SStartTransaction s => spn s
  | SIf v => spn v
  | SInvalid i => spn i
  | SUnion v => spn v
  | SCase v => spn v
  | SCopy v => spn v
  | SStdin d => spn d
  | SCreateTypeEnum v => spn v
  | SDo l => spn l
  | STruncateTable v => spn v
  | SRenameTable v => spn v
  | SWithQuery v => spn v
  | SReturn v => spn v
  end.
#[export] Instance Sp_expr : Spanned expr := span_expr.
#[export] Instance Sp_stmt : Spanned stmt := span_stmt.
#[export] Instance Data_stmt : DataStatement stmt :=
  fun s => match s with SSelect _ | SInsertReplace _ | SUpdate _ | SDelete _ => true | _ => false end.

(** The operators, literals and names in [e] itself. *)
Definition expr_leaves (e : expr) : list atom :=
  match e with
  | EBinary o s _ _ => [ALeaf (LBin o) s]
  | EUnary o s _ => [ALeaf (LUn o) s]
  | ENull s => [ALeaf LNull s]
  | EBool b s => [ALeaf (LBool b) s]
  | EFloat v => [ALeaf (LFloat (fst v)) (snd v)]
  | EFunction f _ s => [ALeaf (LFunc f) s]
  | EWindowFunction f _ s _ _ => [ALeaf (LFunc f) s]
  | EIn _ _ s b => [ALeaf (LIn b) s]
  | EIs _ i s => [ALeaf (LIs i) s]
  | EVariable _ _ _ v s => [ALeaf (LVar v) s]
  | _ => []
  end.
Fixpoint atoms_expr (e : expr) {struct e} : list atom
with atoms_stmt (s : stmt) {struct s} : list atom.
Proof.
  - pose (AE := atoms_expr : Atoms expr). pose (ASt := atoms_stmt : Atoms stmt).
    exact (expr_leaves e ++ ltac:(case e; derive_atoms_case)).
  - pose (AE := atoms_expr : Atoms expr). pose (ASt := atoms_stmt : Atoms stmt).
    case s; derive_atoms_case.
Defined.
#[export] Instance Atoms_expr : Atoms expr := atoms_expr.
#[export] Instance Atoms_stmt : Atoms stmt := atoms_stmt.

