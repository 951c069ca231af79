(** Model of src/lexer.rs. *)
From Verif Require Export Base Keywords.

(** src/lexer.rs:137-140 [Lexer]: the source and the peekable character
    iterator, i.e. the characters not yet read and the byte offset of the first
    of them. *)
Record lex := mkLex { l_src : text; l_rest : text; l_pos : nat }.

(** src/lexer.rs:143-148 [Lexer::new]. *)
Definition lex_new (src : text) : lex := mkLex src src 0.

(** Result of a lexer operation: the panics are values. *)
Inductive lres (A : Type) :=
| LOk (a : A) (l : lex)
| LPanic (w : panic).
Arguments LOk {A} a l. Arguments LPanic {A} w.

(** [self.chars.peek()] (the character). *)
Definition peekc (l : lex) : option N :=
  match l_rest l with [] => None | c :: _ => Some c end.
(** The test [matches!(self.chars.peek(), Some((_, c)))] in which patterns on a literal
    character are written below. *)
Definition peek_is (l : lex) (c : N) : bool :=
  match peekc l with Some d => (d =? c)%N | None => false end.
(** The recurring [match self.chars.peek() { Some((i, _)) => *i, None => self.src.len() }]. *)
Definition peek_pos (l : lex) : nat :=
  match l_rest l with [] => blen (l_src l) | _ :: _ => l_pos l end.
(** [self.chars.next()], result discarded. *)
Definition bump (l : lex) : lex :=
  match l_rest l with [] => l | c :: r => mkLex (l_src l) r (l_pos l + utf8_len c) end.

(** Character classes used as patterns in the source. *)
Definition between (a b c : N) : bool := ((a <=? c) && (c <=? b))%N.
Definition is_digit (c : N) : bool := between 48 57 c.                 (* '0'..='9' *)
Definition is_alpha_ (c : N) : bool :=                                   (* '_' | 'a'..='z' | 'A'..='Z' *)
  (c =? 95)%N || between 97 122 c || between 65 90 c.
Definition is_word (c : N) : bool := is_alpha_ c || is_digit c.
Definition is_quoted_word (c : N) : bool := is_word c || (c =? 45)%N.    (* ... | '-' *)
Definition is_nl (c : N) : bool := (c =? 10)%N || (c =? 13)%N.           (* '\r' | '\n' *)
Definition is_ws (c : N) : bool := (c =? 32)%N || (c =? 9)%N || is_nl c. (* ' ' | '\t' | '\n' | '\r' *)

(** [while matches!(self.chars.peek(), Some((_, p))) { self.chars.next(); }] *)
Fixpoint take_while (p : N -> bool) (r : text) (pos : nat) : text * nat :=
  match r with
  | c :: r' => if p c then take_while p r' (pos + utf8_len c) else (r, pos)
  | [] => (r, pos)
  end.
Definition bump_while (p : N -> bool) (l : lex) : lex :=
  let (r, pos) := take_while p (l_rest l) (l_pos l) in mkLex (l_src l) r pos.

(** src/lexer.rs:150-152 [Lexer::s]. *)
Definition lex_s (l : lex) (a b : nat) : option text := slice (l_src l) a b.

(** Build a token from a slice, or panic. *)
Definition with_s (l : lex) (a b : nat) (f : text -> tok) : lres tok :=
  match lex_s l a b with Some s => LOk (f s) l | None => LPanic PBadSlice end.

(** src/lexer.rs:154-167 [Lexer::simple_literal]. *)
Definition simple_literal (start : nat) (l : lex) : lres tok :=
  let l := bump_while is_word l in
  with_s l start (peek_pos l) (fun s => TIdent s (kw_of_text (upper s))).

(** src/lexer.rs:411,439 [while !matches!(self.chars.next(), Some((_, '\r' | '\n')) | None) {}]. *)
Fixpoint skip_line (r : text) (pos : nat) : text * nat :=
  match r with
  | [] => (r, pos)
  | c :: r' => if is_nl c then (r', pos + utf8_len c) else skip_line r' (pos + utf8_len c)
  end.

(** src/lexer.rs:413-431: the loop reading a [/* ... */] comment after [/*]. *)
Fixpoint skip_block (r : text) (pos : nat) : bool * (text * nat) :=
  match r with
  | [] => (false, (r, pos))
  | c :: r' =>
      if (c =? 42)%N then
        match r' with
        | d :: r'' => if (d =? 47)%N then (true, (r'', pos + utf8_len c + utf8_len d))
                      else skip_block r' (pos + utf8_len c)
        | [] => (false, (r', pos + utf8_len c))
        end
      else skip_block r' (pos + utf8_len c)
  end.

(** src/lexer.rs:459-473 and 474-488: the loops reading a quoted string after the
    opening quote [q].  [Some i]: offset of the closing quote; [None]: end of input. *)
Fixpoint scan_string (q : N) (r : text) (pos : nat) : option nat * (text * nat) :=
  match r with
  | [] => (None, (r, pos))
  | c :: r' =>
      if (c =? 92)%N then
        match r' with
        | [] => (None, (r', pos + utf8_len c))
        | d :: r'' => scan_string q r'' (pos + utf8_len c + utf8_len d)
        end
      else if (c =? q)%N then
        match r' with
        | d :: r'' => if (d =? q)%N then scan_string q r'' (pos + utf8_len c + utf8_len d)
                      else (Some pos, (r', pos + utf8_len c))
        | [] => (Some pos, (r', pos + utf8_len c))
        end
      else scan_string q r' (pos + utf8_len c)
  end.

Definition lex_string (q : N) (f : text -> tok) (start : nat) (l : lex) : lres tok :=
  match scan_string q (l_rest l) (l_pos l) with
  | (Some i, (r, pos)) => with_s (mkLex (l_src l) r pos) (start + 1) i f
  | (None, (r, pos)) => LOk TInvalid (mkLex (l_src l) r pos)
  end.

(** src/lexer.rs:264-320: after [@@], the letters of [session] / [global] in any
    case, consumed as far as they match. *)
Fixpoint match_letters (w : text) (l : lex) : bool * lex :=
  match w with
  | [] => (true, l)
  | x :: w' => match peekc l with
               | Some c => if (to_upper c =? x)%N then match_letters w' (bump l) else (false, l)
               | None => (false, l)
               end
  end.

(** usize::MAX on a 64-bit target. *)
Definition usize_max : N := (2 ^ 64 - 1)%N.

(** src/lexer.rs:335-344: the digits of a [$n] argument, with the overflow check
    of [v * 10 + digit] (a panic in builds with overflow checks). *)
Fixpoint dollar_digits (v : N) (r : text) (pos : nat) : option (N * (text * nat)) :=
  match r with
  | c :: r' => if is_digit c then
                 let v' := (v * 10 + (c - 48))%N in
                 if (usize_max <? v')%N then None else dollar_digits v' r' (pos + utf8_len c)
               else Some (v, (r, pos))
  | [] => Some (v, (r, pos))
  end.

(** src/lexer.rs:489-515: digits, optionally a period and more digits. *)
Definition lex_number (start : nat) (l : lex) : lres tok :=
  let l := bump_while is_digit l in
  if peek_is l 46 then
    let l := bump_while is_digit (bump l) in
    with_s l start (peek_pos l) TFloat
  else with_s l start (peek_pos l) TInteger.

Definition tok1 (t : tok) (l : lex) : lres tok := LOk t l.
(** [match self.chars.peek() { Some((_, c)) => { self.chars.next(); t1 } _ => t2 }] *)
Definition tok2 (c : N) (t1 t2 : tok) (l : lex) : lres tok :=
  if peek_is l c then LOk t1 (bump l) else LOk t2 l.

(** One step of the token loop, after the character [c] at offset [start] has
    been read (src/lexer.rs:230-534).  [None]: [continue]. *)
Definition lex_char (start : nat) (c : N) (l : lex) : lres (option tok) :=
  let some (r : lres tok) := match r with LOk t l => LOk (Some t) l | LPanic w => LPanic w end in
  if is_ws c then LOk None l
  else if (c =? 63)%N then some (tok1 TQuestionMark l)                (* ? *)
  else if (c =? 59)%N then some (tok1 TSemiColon l)                   (* ; *)
  else if (c =? 92)%N then some (tok1 TBackslash l)                   (* \ *)
  else if (c =? 91)%N then some (tok1 TLBracket l)                    (* [ *)
  else if (c =? 93)%N then some (tok1 TRBracket l)                    (* ] *)
  else if (c =? 38)%N then some (tok2 38 TDoubleAmpersand TAmpersand l) (* & *)
  else if (c =? 94)%N then some (tok1 TCaret l)                       (* ^ *)
  else if (c =? 123)%N then some (tok1 TLBrace l)                     (* { *)
  else if (c =? 125)%N then some (tok1 TRBrace l)                     (* } *)
  else if (c =? 40)%N then some (tok1 TLParen l)                      (* ( *)
  else if (c =? 41)%N then some (tok1 TRParen l)                      (* ) *)
  else if (c =? 44)%N then some (tok1 TComma l)                       (* , *)
  else if (c =? 43)%N then some (tok1 TPlus l)                        (* + *)
  else if (c =? 42)%N then some (tok1 TMul l)                         (* * *)
  else if (c =? 37)%N then some (tok2 115 TPercentS TMod l)           (* % then s *)
  else if (c =? 35)%N then some (tok1 TSharp l)                       (* # *)
  else if (c =? 64)%N then                                            (* @ *)
    some (if peek_is l 64 then
            let l := bump l in
            match peekc l with
            | Some d =>
                if (to_upper d =? 83)%N then
                  let (ok, l) := match_letters (txt "SESSION") l in
                  LOk (if ok then TAtAtSession else TInvalid) l
                else if (to_upper d =? 71)%N then
                  let (ok, l) := match_letters (txt "GLOBAL") l in
                  LOk (if ok then TAtAtGlobal else TInvalid) l
                else LOk TInvalid l
            | None => LOk TInvalid l
            end
          else LOk TAt l)
  else if (c =? 126)%N then some (tok1 TTilde l)                      (* ~ *)
  else if (c =? 58)%N then some (tok2 58 TDoubleColon TColon l)       (* : *)
  else if (c =? 36)%N then                                            (* $ *)
    some match peekc l with
         | Some d =>
             if (d =? 36)%N then LOk TDoubleDollar (bump l)
             else if between 49 57 d then
               match dollar_digits (d - 48)%N (l_rest (bump l)) (l_pos (bump l)) with
               | Some (v, (r, pos)) => LOk (TDollarArg v) (mkLex (l_src l) r pos)
               | None => LPanic PDollarOverflow
               end
             else LOk TInvalid l
         | None => LOk TInvalid l
         end
  else if (c =? 61)%N then some (tok2 62 TRArrow TEq l)               (* = *)
  else if (c =? 33)%N then                                            (* ! *)
    some (if peek_is l 61 then LOk TNeq (bump l)
          else if peek_is l 33 then LOk TDoubleExclamationMark (bump l)
          else LOk TExclamationMark l)
  else if (c =? 60)%N then                                            (* < *)
    some (if peek_is l 61 then tok2 62 TSpaceship TLtEq (bump l)
          else if peek_is l 62 then LOk TNeq (bump l)
          else if peek_is l 60 then LOk TShiftLeft (bump l)
          else LOk TLt l)
  else if (c =? 62)%N then                                            (* > *)
    some (if peek_is l 61 then LOk TGtEq (bump l)
          else if peek_is l 62 then LOk TShiftRight (bump l)
          else LOk TGt l)
  else if (c =? 124)%N then some (tok2 124 TDoublePipe TPipe l)       (* | *)
  else if (c =? 45)%N then                                            (* - *)
    if peek_is l 45 then
      let (r, pos) := skip_line (l_rest l) (l_pos l) in
      LOk None (mkLex (l_src l) r pos)
    else LOk (Some TMinus) l
  else if (c =? 47)%N then                                            (* / *)
    if peek_is l 42 then
      let l' := bump l in
      match skip_block (l_rest l') (l_pos l') with
      | (true, (r, pos)) => LOk None (mkLex (l_src l) r pos)
      | (false, (r, pos)) => LOk (Some TInvalid) (mkLex (l_src l) r pos)
      end
    else if peek_is l 47 then
      let (r, pos) := skip_line (l_rest l) (l_pos l) in
      LOk None (mkLex (l_src l) r pos)
    else LOk (Some TDiv) l
  else if (c =? 120)%N || (c =? 88)%N then                            (* x X *)
    if peek_is l 39 then LPanic PHexLiteral else some (simple_literal start l)
  else if is_alpha_ c then some (simple_literal start l)
  else if (c =? 96)%N then                                            (* ` *)
    some (let l := bump_while is_quoted_word l in
          if peek_is l 96 then
            let i := l_pos l in
            with_s (bump l) (start + 1) i (fun s => TIdent s QUOTED_IDENTIFIER)
          else LOk TInvalid l)
  else if (c =? 39)%N then some (lex_string 39 TSingleQuotedString start l)  (* single quote *)
  else if (c =? 34)%N then some (lex_string 34 TDoubleQuotedString start l)  (* double quote *)
  else if is_digit c then some (lex_number start l)
  else if (c =? 46)%N then                                            (* . *)
    some match peekc l with
         | Some d => if is_digit d then
                       let l := bump_while is_digit l in
                       with_s l start (peek_pos l) TFloat
                     else LOk TPeriod l
         | None => LOk TPeriod l
         end
  else LOk (Some TInvalid) l.

(** src/lexer.rs:222-541 [Lexer::next_token].  The [loop] is driven by fuel; the
    number of characters left plus one always suffices (proved in LexerFacts.v),
    so the [None] of [next_token_f] is never returned by [next_token]. *)
Fixpoint next_token_f (n : nat) (l : lex) : option (lres (tok * span)) :=
  match n with
  | O => None
  | S n =>
      match l_rest l with
      | [] => Some (LOk (TEof, (blen (l_src l), blen (l_src l))) l)
      | c :: _ =>
          let start := l_pos l in
          match lex_char start c (bump l) with
          | LPanic w => Some (LPanic w)
          | LOk None l' => next_token_f n l'
          | LOk (Some t) l' => Some (LOk (t, (start, peek_pos l')) l')
          end
      end
  end.
Definition next_token (l : lex) : lres (tok * span) :=
  match next_token_f (S (length (l_rest l))) l with
  | Some r => r
  | None => LPanic PUnwrap (* unreachable, see LexerFacts.next_token_f_some *)
  end.

(** [char::is_ascii_whitespace]: space, tab, newline, form feed, carriage return. *)
Definition is_ascii_whitespace (c : N) : bool :=
  (c =? 32)%N || (c =? 9)%N || (c =? 10)%N || (c =? 12)%N || (c =? 13)%N.

(** src/lexer.rs:191-214: the scan for NL [\] [.] (NL | EOF).  Returns the
    offset of the NL (if found) and the remaining characters. *)
Fixpoint scan_stdin (r : text) (pos : nat) : option nat * (text * nat) :=
  match r with
  | [] => (None, (r, pos))
  | c :: r1 =>
      if (c =? 10)%N then
        match r1 with
        | d :: r2 =>
            if (d =? 92)%N then
              match r2 with
              | e :: r3 =>
                  if (e =? 46)%N then
                    match r3 with
                    | f :: r4 => if (f =? 10)%N then
                                   (Some pos, (r4, pos + utf8_len c + utf8_len d + utf8_len e + utf8_len f))
                                 else scan_stdin r3 (pos + utf8_len c + utf8_len d + utf8_len e)
                    | [] => (Some pos, (r3, pos + utf8_len c + utf8_len d + utf8_len e))
                    end
                  else scan_stdin r2 (pos + utf8_len c + utf8_len d)
              | [] => (None, (r2, pos + utf8_len c + utf8_len d))
              end
            else scan_stdin r1 (pos + utf8_len c)
        | [] => (None, (r1, pos + utf8_len c))
        end
      else scan_stdin r1 (pos + utf8_len c)
  end.

(** src/lexer.rs:174-220 [Lexer::read_from_stdin]. *)
Definition read_from_stdin (l : lex) : lres (text * span) :=
  let l := bump_while (fun c => negb (c =? 10)%N && is_ascii_whitespace c) l in
  match peekc l with
  | None => let n := blen (l_src l) in
            match lex_s l n n with
            | Some s => LOk (s, (n, n)) l
            | None => LPanic PBadSlice
            end
  | Some c =>
      let start := if (c =? 10)%N then l_pos l + 1 else l_pos l in
      let '(i, (r, pos)) := scan_stdin (l_rest l) (l_pos l) in
      let l := mkLex (l_src l) r pos in
      let e := match i with Some i => i + 1 | None => blen (l_src l) end in
      match lex_s l start e with
      | Some s => LOk (s, (start, e)) l
      | None => LPanic PBadSlice
      end
  end.
