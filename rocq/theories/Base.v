(** Base types: text, spans, keywords, tokens, issues, options.
    Everything here is data and small pure functions; no proofs. *)
From Coq Require Export String Ascii NArith Arith Bool List.
Export ListNotations.
Open Scope nat_scope.
Open Scope list_scope.

(** ** Text.  A Rust [&str] is modelled by the list of its Unicode scalar
    values; byte offsets are computed with [utf8_len] (core::str semantics). *)
Definition text := list N.

(** [char::len_utf8] of core. *)
Definition utf8_len (c : N) : nat :=
  if (c <? 128)%N then 1 else if (c <? 2048)%N then 2
  else if (c <? 65536)%N then 3 else 4.

(** [str::len]: length in bytes. *)
Fixpoint blen (t : text) : nat :=
  match t with [] => 0 | c :: r => utf8_len c + blen r end.

Fixpoint txt (s : string) : text :=
  match s with EmptyString => [] | String a r => N_of_ascii a :: txt r end.

Fixpoint text_eqb (a b : text) : bool :=
  match a, b with
  | [], [] => true
  | x :: a', y :: b' => N.eqb x y && text_eqb a' b'
  | _, _ => false
  end.

(** Source character of an ASCII literal. *)
Definition ch (s : string) : N :=
  match s with String a _ => N_of_ascii a | EmptyString => 0%N end.

(** Byte slicing [&src[a..b]]; [None] models the slicing panic (start > end,
    end > len, or an end that is not a character boundary). *)
Fixpoint drop_bytes (n : nat) (t : text) : option text :=
  match n with
  | O => Some t
  | _ => match t with
         | [] => None
         | c :: r => if utf8_len c <=? n then drop_bytes (n - utf8_len c) r else None
         end
  end.
Fixpoint take_bytes (n : nat) (t : text) : option text :=
  match n with
  | O => Some []
  | _ => match t with
         | [] => None
         | c :: r => if utf8_len c <=? n
                     then option_map (cons c) (take_bytes (n - utf8_len c) r) else None
         end
  end.
Definition slice (src : text) (a b : nat) : option text :=
  if a <=? b then
    match drop_bytes a src with Some r => take_bytes (b - a) r | None => None end
  else None.

(** ** Spans.  src/span.rs:16 [pub type Span = core::ops::Range<usize>]. *)
Definition span := (nat * nat)%type.
Definition sp_start (s : span) : nat := fst s.
Definition sp_end (s : span) : nat := snd s.

(** src/span.rs:40-47 [Spanned::join_span] on two spans. *)
Definition join (l r : span) : span := (Nat.min (fst l) (fst r), Nat.max (snd l) (snd r)).
(** src/span.rs:40-47 [join_span] with an [OptSpanned] argument. *)
Definition joino (l : span) (r : option span) : span :=
  match r with Some r => join l r | None => l end.
(** src/span.rs:25-31 [OptSpanned::opt_join_span]. *)
Definition ojoin (l r : option span) : option span :=
  match l with Some l => Some (joino l r) | None => r end.
(** src/span.rs:77-87 [impl OptSpanned for Vec<T> / [T]]: the fold. *)
Definition oconcat (l : list (option span)) : option span := fold_left ojoin l None.

(** ** Keywords (src/keywords.rs:13-76).  The Rust enum has one constructor per
    word; here a keyword is its name.  [KW s] is only ever built for [s] in the
    generated table (Keywords.v), see [kw_of_text]. *)
Inductive kw :=
| NOT_A_KEYWORD
| QUOTED_IDENTIFIER
| KW (name : string).

Definition kw_eqb (a b : kw) : bool :=
  match a, b with
  | NOT_A_KEYWORD, NOT_A_KEYWORD => true
  | QUOTED_IDENTIFIER, QUOTED_IDENTIFIER => true
  | KW x, KW y => String.eqb x y
  | _, _ => false
  end.

(** ** Tokens (src/lexer.rs:17-67). *)
Inductive tok :=
| TAmpersand | TAt | TBackslash | TCaret | TColon | TComma | TDiv | TDoubleColon
| TDoubleExclamationMark | TDoubleAmpersand | TDoublePipe | TDoubleDollar | TEq
| TExclamationMark | TFloat (t : text) | TGt | TGtEq | TIdent (t : text) (k : kw)
| TInteger (t : text) | TInvalid | TLBrace | TLBracket | TLParen | TLt | TLtEq
| TMinus | TMod | TMul | TNeq | TPeriod | TPipe | TPlus | TQuestionMark | TRArrow
| TRBrace | TRBracket | TRParen | TSemiColon | TSharp | TShiftLeft | TShiftRight
| TSingleQuotedString (t : text) | TDoubleQuotedString (t : text) | TSpaceship
| TTilde | TPercentS | TDollarArg (n : N) | TAtAtGlobal | TAtAtSession | TEof.

(** Position of the constructor, used only for the derived equality. *)
Definition tok_tag (t : tok) : nat :=
  match t with
  | TAmpersand => 0 | TAt => 1 | TBackslash => 2 | TCaret => 3 | TColon => 4
  | TComma => 5 | TDiv => 6 | TDoubleColon => 7 | TDoubleExclamationMark => 8
  | TDoubleAmpersand => 9 | TDoublePipe => 10 | TDoubleDollar => 11 | TEq => 12
  | TExclamationMark => 13 | TFloat _ => 14 | TGt => 15 | TGtEq => 16
  | TIdent _ _ => 17 | TInteger _ => 18 | TInvalid => 19 | TLBrace => 20
  | TLBracket => 21 | TLParen => 22 | TLt => 23 | TLtEq => 24 | TMinus => 25
  | TMod => 26 | TMul => 27 | TNeq => 28 | TPeriod => 29 | TPipe => 30
  | TPlus => 31 | TQuestionMark => 32 | TRArrow => 33 | TRBrace => 34
  | TRBracket => 35 | TRParen => 36 | TSemiColon => 37 | TSharp => 38
  | TShiftLeft => 39 | TShiftRight => 40 | TSingleQuotedString _ => 41
  | TDoubleQuotedString _ => 42 | TSpaceship => 43 | TTilde => 44
  | TPercentS => 45 | TDollarArg _ => 46 | TAtAtGlobal => 47 | TAtAtSession => 48
  | TEof => 49
  end.

(** src/lexer.rs:16 [derive(PartialEq)] on [Token]. *)
Definition tok_eqb (a b : tok) : bool :=
  match a, b with
  | TFloat x, TFloat y => text_eqb x y
  | TIdent x k, TIdent y l => text_eqb x y && kw_eqb k l
  | TInteger x, TInteger y => text_eqb x y
  | TSingleQuotedString x, TSingleQuotedString y => text_eqb x y
  | TDoubleQuotedString x, TDoubleQuotedString y => text_eqb x y
  | TDollarArg x, TDollarArg y => N.eqb x y
  | _, _ => Nat.eqb (tok_tag a) (tok_tag b)
  end.

(** Pattern [Token::Ident(_, Keyword::k)]. *)
Definition is_kw (t : tok) (k : string) : bool :=
  match t with TIdent _ k' => kw_eqb k' (KW k) | _ => false end.

(** src/keywords.rs:36-43 [Keyword::name]. *)
Definition kw_name (k : kw) : string :=
  match k with
  | NOT_A_KEYWORD => "NOT_A_KEYWORD" | QUOTED_IDENTIFIER => "QUOTED_IDENTIFIER"
  | KW s => s
  end.

(** src/lexer.rs:70-135 [Token::name].  (The names of ShiftLeft and ShiftRight
    are swapped in the source; kept as they are.) *)
Definition tok_name (t : tok) : string :=
  match t with
  | TAmpersand => "'&'" | TAt => "'@'" | TBackslash => "'\'" | TCaret => "'^'"
  | TColon => "':'" | TComma => "','" | TDiv => "'/'" | TDoubleColon => "'::'"
  | TDoubleExclamationMark => "'!!'" | TDoublePipe => "'||'"
  | TDoubleAmpersand => "'&&'" | TEq => "'='" | TExclamationMark => "'!'"
  | TFloat _ => "Float" | TGt => "'>'" | TGtEq => "'>='"
  | TIdent _ NOT_A_KEYWORD => "Identifier"
  | TIdent _ QUOTED_IDENTIFIER => "QuotedIdentifier"
  | TIdent _ k => kw_name k
  | TInteger _ => "Integer" | TInvalid => "Invalid" | TLBrace => "'{'"
  | TLBracket => "'['" | TLParen => "'('" | TLt => "'<'" | TLtEq => "'<='"
  | TMinus => "'-'" | TMod => "'%'" | TMul => "'*'" | TNeq => "'!='"
  | TPeriod => "'.'" | TPipe => "'|'" | TPlus => "'+'" | TQuestionMark => "'?'"
  | TRArrow => "'=>'" | TRBrace => "'}'" | TRBracket => "']'" | TRParen => "')'"
  | TSemiColon => "';'" | TSharp => "'#'" | TShiftLeft => "'>>'"
  | TShiftRight => "'<<'" | TDoubleDollar => "'$$'"
  | TDollarArg 1%N => "'$1'" | TDollarArg 2%N => "'$2'" | TDollarArg 3%N => "'$3'"
  | TDollarArg 4%N => "'$4'" | TDollarArg 5%N => "'$5'" | TDollarArg 6%N => "'$6'"
  | TDollarArg 7%N => "'$7'" | TDollarArg 8%N => "'$8'" | TDollarArg 9%N => "'$9'"
  | TDollarArg _ => "'$i'"
  | TSingleQuotedString _ => "String" | TDoubleQuotedString _ => "String"
  | TSpaceship => "'<=>'" | TTilde => "'~'" | TPercentS => "'%s'"
  | TAtAtGlobal => "@@GLOBAL" | TAtAtSession => "@@SESSION" | TEof => "EndOfFile"
  end%string.

(** ** Issues (src/issue.rs:20-49). *)
Inductive level := Warning | Error.
Record fragment := mkFragment { f_message : text; f_span : span; f_segment : text }.
Record issue := mkIssue {
  i_level : level; i_message : text; i_span : span; i_segment : text;
  i_fragments : list fragment }.

(** ** Options (src/lib.rs:110-164). *)
Inductive dialect := MariaDB | PostgreSQL | Sqlite.
Inductive arguments := ArgNone | ArgPercent | ArgQuestionMark | ArgDollar.
Record options := mkOptions {
  o_dialect : dialect; o_arguments : arguments;
  o_warn_unquoted : bool; o_warn_caps : bool; o_list_hack : bool }.

(** src/lib.rs:117-129. *)
Definition is_postgresql (d : dialect) : bool := match d with PostgreSQL => true | _ => false end.
Definition is_maria (d : dialect) : bool := match d with MariaDB => true | _ => false end.
Definition is_sqlite (d : dialect) : bool := match d with Sqlite => true | _ => false end.

(** src/lib.rs:154-164 [Default], and the builder methods src/lib.rs:172-213. *)
Definition default_options : options := mkOptions MariaDB ArgNone false false false.
Definition opt_dialect (d : dialect) (o : options) : options :=
  mkOptions d (o_arguments o) (o_warn_unquoted o) (o_warn_caps o) (o_list_hack o).
Definition opt_arguments (a : arguments) (o : options) : options :=
  mkOptions (o_dialect o) a (o_warn_unquoted o) (o_warn_caps o) (o_list_hack o).
Definition opt_warn_unquoted (b : bool) (o : options) : options :=
  mkOptions (o_dialect o) (o_arguments o) b (o_warn_caps o) (o_list_hack o).
Definition opt_warn_caps (b : bool) (o : options) : options :=
  mkOptions (o_dialect o) (o_arguments o) (o_warn_unquoted o) b (o_list_hack o).
Definition opt_list_hack (b : bool) (o : options) : options :=
  mkOptions (o_dialect o) (o_arguments o) (o_warn_unquoted o) (o_warn_caps o) b.

(** ** Reasons for a panic.  Each names one panicking construct of the source. *)
Inductive panic :=
| PHexLiteral            (* src/lexer.rs:438-443  todo!("Hex literal") *)
| PDollarOverflow        (* src/lexer.rs:335-344  usize overflow of "$<digits>" (overflow checks on) *)
| PBadSlice              (* src/lexer.rs:150, src/issue.rs:117: slicing out of range / off a boundary *)
| PSpanOfBlock           (* src/statement.rs:451,463  expect("Span of block") *)
| PSpanOfIdentifierParts (* src/expression.rs:576  expect("Span of identifier parts") *)
| PSpanOfTable           (* src/select.rs:219  expect("span of table") *)
| PWidth                 (* src/data_type.rs:200  expect("width") *)
| PDelimiter             (* src/statement.rs:896  expect("Delimiter") *)
| PUnwrap.               (* remaining unwrap()s: src/parser.rs:287, src/select.rs:336 *)
