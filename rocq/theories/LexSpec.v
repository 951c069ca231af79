(** Specification vocabulary for the lexer: positions, the text of a token, the text
    between tokens.  Nothing here depends on the lexer itself. *)
From Verif Require Export Base Keywords.
From Coq Require Export Lia.

(** [n] is the byte offset of a character boundary of [src]. *)
Definition boundary (src : text) (n : nat) : Prop :=
  exists pre post, src = pre ++ post /\ n = blen pre.
(** [s] is a byte range with which [src] can be sliced. *)
Definition vspan (src : text) (s : span) : Prop :=
  fst s <= snd s /\ boundary src (fst s) /\ boundary src (snd s).
(** The text of [src] at [s] is [w]. *)
Definition at_span (src : text) (s : span) (w : text) : Prop :=
  exists pre post, src = pre ++ w ++ post /\ fst s = blen pre /\ snd s = blen pre + blen w.

(** A word of [src] that spells [k] when upper-cased. *)
Definition has_word (src : text) (k : string) : Prop :=
  exists pre v post, src = pre ++ v ++ post /\ upper v = txt k.

Definition digit (c : N) : Prop := (48 <= c <= 57)%N.
(** Value of a string of decimal digits. *)
Definition dec_value (t : text) : N := fold_left (fun v c => (v * 10 + (c - 48))%N) t 0%N.

(** Letters, digits and underscore; the first character of a word is not a digit. *)
Definition letter (c : N) : Prop := c = 95%N \/ (97 <= c <= 122)%N \/ (65 <= c <= 90)%N.
Definition word (t : text) : Prop :=
  exists c r, t = c :: r /\ letter c /\ Forall (fun c => letter c \/ digit c) r.
(** What may stand between backticks. *)
Definition quoted_word (t : text) : Prop := Forall (fun c => letter c \/ digit c \/ c = 45%N) t.
(** Digits with one period and at least one digit. *)
Definition float_text (t : text) : Prop :=
  exists a b, t = a ++ txt "." ++ b /\ Forall digit a /\ Forall digit b /\ (a <> [] \/ b <> []).
(** What may stand between the quotes [q] of a string: anything, but [q] only doubled
    or after a backslash. *)
Inductive string_body (q : N) : text -> Prop :=
| sb_nil : string_body q []
| sb_char c t : c <> q -> c <> 92%N -> string_body q t -> string_body q (c :: t)
| sb_escape c t : string_body q t -> string_body q (92%N :: c :: t)
| sb_double t : string_body q t -> string_body q (q :: q :: t).

(** [t] with the quotes [q] doubled. *)
Fixpoint double (q : N) (t : text) : text :=
  match t with [] => [] | c :: r => if (c =? q)%N then q :: q :: double q r else c :: double q r end.

(** Which source texts a token may stand for. *)
Definition tok_text (t : tok) (w : text) : Prop :=
  match t with
  | TAmpersand => w = txt "&" | TAt => w = txt "@" | TBackslash => w = txt "\"
  | TCaret => w = txt "^" | TColon => w = txt ":" | TComma => w = txt ","
  | TDiv => w = txt "/" | TDoubleColon => w = txt "::"
  | TDoubleExclamationMark => w = txt "!!" | TDoubleAmpersand => w = txt "&&"
  | TDoublePipe => w = txt "||" | TDoubleDollar => w = txt "$$" | TEq => w = txt "="
  | TExclamationMark => w = txt "!"
  | TFloat v => w = v /\ float_text v
  | TGt => w = txt ">" | TGtEq => w = txt ">="
  | TIdent v QUOTED_IDENTIFIER => w = txt "`" ++ v ++ txt "`" /\ quoted_word v
  | TIdent v k => w = v /\ word v /\ k = kw_of_text (upper v)
  | TInteger v => w = v /\ v <> [] /\ Forall digit v
  | TInvalid => True
  | TLBrace => w = txt "{" | TLBracket => w = txt "[" | TLParen => w = txt "("
  | TLt => w = txt "<" | TLtEq => w = txt "<=" | TMinus => w = txt "-"
  | TMod => w = txt "%" | TMul => w = txt "*" | TNeq => w = txt "!=" \/ w = txt "<>"
  | TPeriod => w = txt "." | TPipe => w = txt "|" | TPlus => w = txt "+"
  | TQuestionMark => w = txt "?" | TRArrow => w = txt "=>" | TRBrace => w = txt "}"
  | TRBracket => w = txt "]" | TRParen => w = txt ")" | TSemiColon => w = txt ";"
  | TSharp => w = txt "#" | TShiftLeft => w = txt "<<" | TShiftRight => w = txt ">>"
  | TSingleQuotedString v => w = txt "'" ++ v ++ txt "'" /\ string_body 39 v
  | TDoubleQuotedString v => w = [34%N] ++ v ++ [34%N] /\ string_body 34 v
  | TSpaceship => w = txt "<=>" | TTilde => w = txt "~" | TPercentS => w = txt "%s"
  | TDollarArg n => exists d ds, w = txt "$" ++ d :: ds /\ (49 <= d <= 57)%N /\ Forall digit ds /\
                             dec_value (d :: ds) = n /\ (n <= 2 ^ 64 - 1)%N
  | TAtAtGlobal => upper w = txt "@@GLOBAL" | TAtAtSession => upper w = txt "@@SESSION"
  | TEof => w = []
  end.

(** [r] begins with a character satisfying [p]. *)
Definition starts (p : N -> Prop) (r : text) : Prop := match r with c :: _ => p c | [] => False end.
Definition chars (s : string) (c : N) : Prop := In c (txt s).
(** The text [r] after a token does not continue the token ("longest match"). *)
Definition ends (t : tok) (r : text) : Prop :=
  match t with
  | TAmpersand => ~ starts (chars "&") r
  | TMod => ~ starts (chars "s") r
  | TAt => ~ starts (chars "@") r
  | TColon => ~ starts (chars ":") r
  | TEq => ~ starts (chars ">") r
  | TExclamationMark => ~ starts (chars "=!") r
  | TLt => ~ starts (chars "=<>") r
  | TLtEq => ~ starts (chars ">") r
  | TGt => ~ starts (chars "=>") r
  | TPipe => ~ starts (chars "|") r
  | TMinus => ~ starts (chars "-") r
  | TDiv => ~ starts (chars "*/") r
  | TPeriod => ~ starts digit r
  | TFloat _ => ~ starts digit r
  | TInteger _ => ~ starts (fun c => digit c \/ c = 46%N) r
  | TDollarArg _ => ~ starts digit r
  | TIdent v QUOTED_IDENTIFIER => True
  | TIdent v _ => ~ starts (fun c => letter c \/ digit c) r /\
                  ~ (upper v = txt "X" /\ starts (chars "'") r)
  | TSingleQuotedString _ => ~ starts (fun c => c = 39%N) r
  | TDoubleQuotedString _ => ~ starts (fun c => c = 34%N) r
  | _ => True
  end.

Definition white (c : N) : Prop := c = 32%N \/ c = 9%N \/ c = 10%N \/ c = 13%N.
Definition newline (c : N) : Prop := c = 10%N \/ c = 13%N.
(** [contains_star_slash t]: ["*/"] occurs in [t]. *)
Definition ends_comment (t : text) : Prop := exists a b, t = a ++ txt "*/" ++ b.

(** Text that separates tokens: white space, [-- ...] and [// ...] up to and including
    the end of the line, [/* ... */]. *)
Inductive trivia : text -> Prop :=
| tr_nil : trivia []
| tr_white c t : white c -> trivia t -> trivia (c :: t)
| tr_line o body nl t : o = txt "--" \/ o = txt "//" ->
    Forall (fun c => ~ newline c) body -> newline nl ->
    trivia t -> trivia (o ++ body ++ nl :: t)
| tr_block body t : ~ ends_comment (body ++ txt "*") -> trivia t ->
    trivia (txt "/*" ++ body ++ txt "*/" ++ t).
(** The same up to the end of input, where the last line comment may be open. *)
Inductive trivia_end : text -> Prop :=
| te_end t : trivia t -> trivia_end t
| te_line t o body : trivia t -> o = txt "--" \/ o = txt "//" ->
    Forall (fun c => ~ newline c) body -> trivia_end (t ++ o ++ body).

(** The text between the current position and a token, [rest] being what follows it:
    at the end of the input an open line comment is possible. *)
Definition gap (g rest : text) : Prop := trivia g \/ (rest = [] /\ trivia_end g).

(** Between the byte offsets [a] and [b] of [src] there is nothing but a gap. *)
Definition gap_at (src : text) (a b : nat) : Prop :=
  exists pre g rest, src = pre ++ g ++ rest /\ a = blen pre /\ b = blen pre + blen g /\ gap g rest.

(** The two lexical panics, as properties of the source. *)
(** [x'] or [X'] occurs. *)
Definition has_hex (src : text) : Prop :=
  exists pre c post, src = pre ++ c :: 39%N :: post /\ (c = 120%N \/ c = 88%N).
(** [$] followed by digits whose value exceeds [usize::MAX]. *)
Definition has_big_dollar (src : text) : Prop :=
  exists pre ds post, src = pre ++ txt "$" ++ ds ++ post /\ Forall digit ds /\ (2 ^ 64 - 1 < dec_value ds)%N.
