(** Specification: which words may stand where a leaf of the syntax tree says it is written.
    Nothing here depends on the lexer or the parser. *)
From Verif Require Export Ast LexSpec.
Local Open Scope string_scope.
Local Open Scope list_scope.

(** [w] consists of the words [ks], in any case, with nothing but white space and comments
    between them. *)
Inductive phrase : list string -> text -> Prop :=
| ph_one k w : upper w = txt k -> phrase [k] w
| ph_cons k w g ks w' : upper w = txt k -> trivia g -> phrase ks w' -> phrase (k :: ks) (w ++ g ++ w').

(** The letters of words, in capitals and without underscores. *)
Definition letters (ks : list string) : text :=
  filter (fun c => negb (c =? 95)%N) (upper (flat_map txt ks)).
(** A constructor called [c] is spelled by the words [ks]: [SetNull] by SET NULL, [HighPriority]
    by HIGH_PRIORITY; or [ks] is another spelling of it. *)
Definition eqw (a b : list string) : bool := if list_eq_dec string_dec a b then true else false.
Definition spelled (other : list (string * list string)) (c : string) (ks : list string) : bool :=
  text_eqb (letters [c]) (letters ks) || existsb (fun x => String.eqb (fst x) c && eqw (snd x) ks) other.

(** What is spelled differently from its name.  (Where two enums have constructors of the same
    name, and the words differ, the name is qualified.) *)
Definition other_tags : list (string * list string) := [
  ("IndexTypeBTree", ["BTREE"]); ("IndexTypeHash", ["HASH"]); ("IndexTypeRTree", ["RTREE"]);
  ("ForeignKeyOnType::Update", ["ON"; "UPDATE"]); ("ForeignKeyOnType::Delete", ["ON"; "DELETE"]);
  ("ForeignKeyOnAction::Restrict", ["RESTRICT"]); ("ForeignKeyOnAction::Cascade", ["CASCADE"]);
  ("ForeignKeyOnAction::SetNull", ["SET"; "NULL"]); ("ForeignKeyOnAction::SetDefault", ["SET"; "DEFAULT"]); ("ForeignKeyOnAction::NoAction", ["NO"; "ACTION"]);
  ("IndexType::Primary", ["PRIMARY"; "KEY"]); ("IndexType::Index", ["INDEX"]); ("IndexType::Index", ["KEY"]);
  ("IndexType::FullText", ["FULLTEXT"; "INDEX"]); ("IndexType::FullText", ["FULLTEXT"; "KEY"]);
  ("IndexType::Spatial", ["SPATIAL"; "INDEX"]); ("IndexType::Spatial", ["SPATIAL"; "KEY"]);
  ("IndexType::Unique", ["UNIQUE"; "INDEX"]); ("IndexType::Unique", ["UNIQUE"; "KEY"]);
  ("GeneratedAlways", ["GENERATED"; "ALWAYS"; "AS"; "IDENTITY"]);
  ("JoinType::Normal", ["JOIN"]); ("JoinType::Straight", ["STRAIGHT_JOIN"]);
  ("JoinType::Inner", ["INNER"; "JOIN"]); ("JoinType::Cross", ["CROSS"; "JOIN"]);
  ("JoinType::Left", ["LEFT"; "JOIN"]); ("JoinType::Left", ["LEFT"; "OUTER"; "JOIN"]);
  ("JoinType::Right", ["RIGHT"; "JOIN"]); ("JoinType::Right", ["RIGHT"; "OUTER"; "JOIN"]);
  ("JoinType::Natural", ["NATURAL"; "JOIN"]); ("JoinType::NaturalInner", ["NATURAL"; "INNER"; "JOIN"]);
  ("JoinType::NaturalLeft", ["NATURAL"; "LEFT"; "JOIN"]); ("JoinType::NaturalLeft", ["NATURAL"; "LEFT"; "OUTER"; "JOIN"]);
  ("JoinType::NaturalRight", ["NATURAL"; "RIGHT"; "JOIN"]); ("JoinType::NaturalRight", ["NATURAL"; "RIGHT"; "OUTER"; "JOIN"]) ].
(** Where the code does not agree with [other_tags]: words that are classified as something else,
    and (for NATURAL LEFT and NATURAL RIGHT) spans that cover only a part of the words. *)
Definition wrong_tags : list (string * list string) := [
  ("ForeignKeyOnAction::SetNull", ["NO"; "ACTION"]);
  ("IndexType::FullText", ["SPATIAL"; "INDEX"]); ("IndexType::FullText", ["SPATIAL"; "KEY"]);
  ("IndexType::FullText", ["UNIQUE"; "INDEX"]); ("IndexType::FullText", ["UNIQUE"; "KEY"]);
  ("JoinType::NaturalLeft", ["LEFT"; "JOIN"]); ("JoinType::NaturalLeft", ["LEFT"; "OUTER"; "JOIN"]);
  ("JoinType::NaturalRight", ["RIGHT"; "JOIN"]); ("JoinType::NaturalRight", ["RIGHT"; "OUTER"; "JOIN"]) ].
Definition listed (t : list (string * list string)) (c : string) (ks : list string) : bool :=
  existsb (fun x => String.eqb (fst x) c && eqw (snd x) ks) t.

(** The words of an operator. *)
Definition binop_words (o : binop) : list (list string) :=
  match o with
  | Or => [["OR"]; ["||"]] | Xor => [["XOR"]] | And => [["AND"]; ["&&"]]
  | Eq_ => [["="]] | NullSafeEq => [["<=>"]] | GtEq => [[">="]] | Gt_ => [[">"]] | LtEq => [["<="]] | Lt_ => [["<"]]
  | Neq => [["!="]; ["<>"]] | ShiftLeft => [["<<"]] | ShiftRight => [[">>"]]
  | BitAnd => [["&"]] | BitOr => [["|"]] | BitXor => [["^"]]
  | Ast.Add => [["+"]] | Subtract => [["-"]] | Divide => [["/"]] | Div => [["DIV"]] | Mod => [["%"]; ["MOD"]] | Mult => [["*"]]
  | Like => [["LIKE"]] | NotLike => [["NOT"; "LIKE"]]
  end.
Definition unop_words (o : unop) : list string :=
  match o with
  | UBinary => ["BINARY"] | UCollate => ["COLLATE"] | ULogicalNot => ["!"] | UMinus => ["-"] | UNot => ["NOT"]
  end.
Definition is_words (i : is_) : list string :=
  match i with
  | IsNull => ["IS"; "NULL"] | IsNotNull => ["IS"; "NOT"; "NULL"]
  | IsTrue => ["IS"; "TRUE"] | IsNotTrue => ["IS"; "NOT"; "TRUE"]
  | IsFalse => ["IS"; "FALSE"] | IsNotFalse => ["IS"; "NOT"; "FALSE"]
  | IsUnknown => ["IS"; "UNKNOWN"] | IsNotUnknown => ["IS"; "NOT"; "UNKNOWN"]
  end.

(** Functions and data types that are not spelled as their constructors (the constructors
    JsonMergePath and JsonMergePerserve are misspelled in the code). *)
Definition other_functions : list (string * list string) := [
  ("CharacterLength", ["CHAR_LENGTH"]); ("SubStr", ["SUBSTRING"]); ("Value", ["VALUES"]); ("IfNull", ["NVL"]);
  ("Ceil", ["CEILING"]); ("Pow", ["POWER"]); ("CurDate", ["CURRENT_DATE"]); ("CurTime", ["CURRENT_TIME"]);
  ("AddDate", ["DATE_ADD"]); ("DayOfMonth", ["DAY"]); ("Now", ["LOCALTIME"]); ("Now", ["LOCALTIMESTAMP"]);
  ("DateSub", ["SUBDATE"]); ("JsonMergePath", ["JSON_MERGE_PATCH"]); ("JsonMergePerserve", ["JSON_MERGE_PRESERVE"]) ].
Definition other_types : list (string * list string) := [
  ("Float", ["REAL"]); ("Double", ["REAL"]); ("Double", ["DOUBLE"; "PRECISION"]) ].
(** The kinds of things in ALTER TABLE. *)
Definition fk_types : list (string * list string) := [
  ("ForeignKeyOnType::Update", ["ON"; "UPDATE"]); ("ForeignKeyOnType::Delete", ["ON"; "DELETE"]) ].
Definition fk_actions : list (string * list string) := [
  ("ForeignKeyOnAction::Restrict", ["RESTRICT"]); ("ForeignKeyOnAction::Cascade", ["CASCADE"]);
  ("ForeignKeyOnAction::SetNull", ["SET"; "NULL"]); ("ForeignKeyOnAction::SetDefault", ["SET"; "DEFAULT"]);
  ("ForeignKeyOnAction::NoAction", ["NO"; "ACTION"]) ].
Definition wrong_actions : list (string * list string) := [ ("ForeignKeyOnAction::SetNull", ["NO"; "ACTION"]) ].
Definition index_types : list (string * list string) := [
  ("IndexType::Primary", ["PRIMARY"; "KEY"]); ("IndexType::Index", ["INDEX"]); ("IndexType::Index", ["KEY"]);
  ("IndexType::FullText", ["FULLTEXT"; "INDEX"]); ("IndexType::FullText", ["FULLTEXT"; "KEY"]);
  ("IndexType::Spatial", ["SPATIAL"; "INDEX"]); ("IndexType::Spatial", ["SPATIAL"; "KEY"]);
  ("IndexType::Unique", ["UNIQUE"; "INDEX"]); ("IndexType::Unique", ["UNIQUE"; "KEY"]) ].
Definition wrong_indexes : list (string * list string) := [
  ("IndexType::FullText", ["SPATIAL"; "INDEX"]); ("IndexType::FullText", ["SPATIAL"; "KEY"]);
  ("IndexType::FullText", ["UNIQUE"; "INDEX"]); ("IndexType::FullText", ["UNIQUE"; "KEY"]) ].
(** The first word of a table option. *)
Definition table_options : list (string * list string) := [
  ("Engine", ["ENGINE"]); ("CharSet", ["CHARSET"]); ("Collate", ["COLLATE"]); ("RowFormat", ["ROW_FORMAT"]);
  ("DefaultCharSet", ["DEFAULT"]); ("DefaultCollate", ["DEFAULT"]); ("Comment", ["COMMENT"]); ("Strict", ["STRICT"]) ].

(** The words with which a leaf is written, for leaves that are words. *)
Definition leaf_words (l : leaf) (ks : list string) : bool :=
  match l with
  | LTag c => spelled other_tags c ks || listed wrong_tags c ks
  | LBin o => existsb (eqw ks) (binop_words o)
  | LUn o => eqw ks (unop_words o)
  | LIn b => eqw ks (if b then ["NOT"; "IN"] else ["IN"])
  | LIs i => eqw ks (is_words i)
  | LBool b => eqw ks [if b then "TRUE" else "FALSE"]
  | LNull => eqw ks ["NULL"]
  | LUnit u => spelled [] u ks
  | LFunc (FName c) => spelled other_functions c ks
  | LVar VTimeZone => eqw ks ["TIME_ZONE"]
  | LType c => spelled other_types c ks
  | LFkOn c => listed fk_types c ks
  | LFkAction c => listed fk_actions c ks || listed wrong_actions c ks
  | LIndex c => listed index_types c ks || listed wrong_indexes c ks
  | LTableOption c => listed table_options c ks
  | _ => false
  end.

(** A string literal [w] with value [v]: between quotes stands [v], with the quotes in it doubled.
    (If there are backslashes or, between double quotes, doubled quotes, the code does not decode
    the literal properly, see C15; nothing is said about the value then.) *)
Definition string_literal (v w : text) : Prop :=
  exists q b, (q = 39%N \/ q = 34%N) /\ w = [q] ++ b ++ [q] /\ string_body q b /\
    forall t, b = double q t -> (q = 34%N -> ~ In 34%N t /\ ~ In 92%N t) -> v = t.
(** One or more string literals in a row. *)
Inductive string_literals : text -> text -> Prop :=
| sl_one v w : string_literal v w -> string_literals v w
| sl_more v w g v' w' : string_literals v w -> trivia g -> string_literal v' w' ->
    string_literals (v ++ v') (w ++ g ++ w').
(** Leaves that are not words. *)
Definition leaf_value (l : leaf) (w : text) : Prop :=
  match l with
  | LInt n =>           (* the digits; too large numbers and missing numbers are 0 *)
      Forall digit w /\ (dec_value w = n \/ (n = 0%N /\ (2 ^ 32 <= dec_value w)%N))
  | LFloat t => w = t /\ float_text t
  | LStr v => string_literals v w
  | LFunc (FOther v) | LVar (VOther v) => w = v \/ w = txt "`" ++ v ++ txt "`"
  | _ => False
  end.
(** The text of a leaf. *)
Definition leaf_text (l : leaf) (w : text) : Prop := leaf_value l w \/ exists ks, leaf_words l ks = true /\ phrase ks w.

Lemma phrase_app k1 w1 g k2 w2 : phrase k1 w1 -> trivia g -> phrase k2 w2 -> phrase (k1 ++ k2) (w1 ++ g ++ w2).
Proof.
  intros H Hg H2. induction H as [k w H|k w g' ks w' H Hg' H' IH].
  - now apply ph_cons.
  - rewrite <- !app_assoc. cbn [app]. apply ph_cons; auto.
Qed.
