(** Model of src/parser.rs: parser state, the parser "programs" and the
    [Parser] methods.

    A Rust function [fn f(parser: &mut Parser) -> Result<T, ParseError>] is
    modelled by a value of type [prog T]: a tree whose nodes are the primitive
    effects on the parser state ([op]), failing ([Fail], i.e. [Err(Unrecovered)]),
    panicking, and catching a failure ([Try]; the source does so in
    [Parser::recovered], src/parser.rs:155-161, and the main loop of
    [parse_statements]).  [run] gives the tree its meaning on a parser state. *)
From Verif Require Export Lexer.

(** src/parser.rs:27-37 [Parser].  [s_isrc] and [s_issues] are the two fields of
    the [Issues] value behind the [issues] reference (src/issue.rs:71-75). *)
Record pst := mkPst {
  s_lex : lex; s_tok : tok; s_span : span; s_peek : option (tok * span);
  s_isrc : text; s_issues : list issue; s_arg : N; s_delim : tok;
  s_opts : options; s_permit : bool }.

Inductive op : Type -> Type :=
| OTok : op tok                              (* parser.token *)
| OSpan : op span                            (* parser.span *)
| ONext : op unit                            (* parser.next() *)
| OPeek : op tok                             (* parser.peek() *)
| OIssue (l : level) (m : text) (s : span) (fr : list (text * span)) : op unit
                                             (* parser.err/warn(m, s).frag(..).frag(..) *)
| OLintIdent (l : level) (v : text) (s : span) : op unit
                                             (* if options.warn_unquoted_identifiers {..} *)
| OLintCaps (v : text) (s : span) : op unit  (* if options.warn_none_capital_keywords {..} *)
| OArg : op N                                (* parser.arg += 1; parser.arg - 1 *)
| ODelim : op tok                            (* parser.delimiter *)
| OSetDelim (t : tok) : op unit
| OPermit : op bool                          (* parser.permit_compound_statements *)
| OSetPermit (b : bool) : op unit
| ODialect : op dialect                      (* parser.options.dialect *)
| OArguments : op arguments                  (* parser.options.arguments *)
| OListHack : op bool                        (* parser.options.list_hack *)
| ORecover (success : tok -> bool) : op bool (* parser.recover(success, |_| false).is_ok() *)
| OStdin : op (text * span).                 (* parser.read_from_stdin_and_next() *)

Inductive prog (A : Type) : Type :=
| Ret (a : A)
| Fail
| Panic (w : panic)
| OutOfFuel
| Op (X : Type) (o : op X) (k : X -> prog A)
| Try (X : Type) (p : prog X) (k : option X -> prog A).
Arguments Ret {A} a. Arguments Fail {A}. Arguments Panic {A} w. Arguments OutOfFuel {A}.
Arguments Op {A X} o k. Arguments Try {A X} p k.

Fixpoint bind {A B} (p : prog A) (f : A -> prog B) : prog B :=
  match p with
  | Ret a => f a
  | Fail => Fail
  | Panic w => Panic w
  | OutOfFuel => OutOfFuel
  | Op o k => Op o (fun x => bind (k x) f)
  | Try p k => Try p (fun x => bind (k x) f)
  end.
Definition perf {X} (o : op X) : prog X := Op o Ret.

Declare Scope prog_scope.
Delimit Scope prog_scope with prog.
Notation "x <- p ;; q" := (bind p (fun x => q))
  (at level 61, p at next level, right associativity) : prog_scope.
Notation "' pat <- p ;; q" := (bind p (fun x => match x with pat => q end))
  (at level 61, pat pattern, p at next level, right associativity) : prog_scope.
Notation "p ;;; q" := (bind p (fun _ => q)) (at level 61, right associativity) : prog_scope.
Open Scope prog_scope.

(** ** Meaning of the primitive effects *)
Inductive xres (X : Type) := XOk (x : X) (st : pst) | XPanic (w : panic) | XFuel.
Arguments XOk {X} x st. Arguments XPanic {X} w. Arguments XFuel {X}.

(** src/parser.rs:177-181 [Parser::next]. *)
Definition p_next (st : pst) : xres unit :=
  match s_peek st with
  | Some (t, sp) =>
      XOk tt (mkPst (s_lex st) t sp None (s_isrc st) (s_issues st) (s_arg st) (s_delim st) (s_opts st) (s_permit st))
  | None =>
      match next_token (s_lex st) with
      | LOk (t, sp) l =>
          XOk tt (mkPst l t sp None (s_isrc st) (s_issues st) (s_arg st) (s_delim st) (s_opts st) (s_permit st))
      | LPanic w => XPanic w
      end
  end.

(** src/parser.rs:183-188 [Parser::peek]. *)
Definition p_peek (st : pst) : xres tok :=
  match s_peek st with
  | Some (t, _) => XOk t st
  | None =>
      match next_token (s_lex st) with
      | LOk (t, sp) l =>
          XOk t (mkPst l (s_tok st) (s_span st) (Some (t, sp)) (s_isrc st) (s_issues st) (s_arg st)
                       (s_delim st) (s_opts st) (s_permit st))
      | LPanic w => XPanic w
      end
  end.

Definition set_issues (st : pst) (i : list issue) : pst :=
  mkPst (s_lex st) (s_tok st) (s_span st) (s_peek st) (s_isrc st) i (s_arg st) (s_delim st)
        (s_opts st) (s_permit st).

(** src/issue.rs:56-68 [IssueHandle::frag], repeated. *)
Fixpoint build_frags (src : text) (fr : list (text * span)) : option (list fragment) :=
  match fr with
  | [] => Some []
  | (m, s) :: r =>
      match slice src (fst s) (snd s), build_frags src r with
      | Some seg, Some r' => Some (mkFragment m s seg :: r')
      | _, _ => None
      end
  end.

(** src/issue.rs:78-118 [Issues::err], [Issues::warn], [Issues::segment]. *)
Definition p_issue (l : level) (m : text) (s : span) (fr : list (text * span)) (st : pst) : xres unit :=
  match slice (s_isrc st) (fst s) (snd s), build_frags (s_isrc st) fr with
  | Some seg, Some frs => XOk tt (set_issues st (s_issues st ++ [mkIssue l m s seg frs]))
  | _, _ => XPanic PBadSlice
  end.

(** The bracket stack of [recover]: pop until [b] has been popped
    (src/parser.rs:121-125, 129-133, 137-141). *)
Fixpoint pop_brackets (b : tok) (st : list tok) : list tok :=
  match st with
  | [] => []
  | v :: r => if tok_eqb v b then r else pop_brackets b r
  end.

(** src/parser.rs:96-147 [Parser::recover] with [fail = |_| false] (the only way
    it is called).  Driven by fuel; see [rec_fuel]. *)
Fixpoint recover_f (n : nat) (success : tok -> bool) (brackets : list tok) (st : pst) : xres bool :=
  match n with
  | O => XFuel
  | S n =>
      let t := s_tok st in
      let step (b : list tok) :=
        match p_next st with
        | XOk _ st' => recover_f n success b st'
        | XPanic w => XPanic w
        | XFuel => XFuel
        end in
      if (match brackets with [] => true | _ => false end) && success t then XOk true st
      else if tok_eqb t TEof then XOk false st
      else if tok_eqb t (s_delim st) then XOk false st
      else match t with
           | TLParen => step (TLParen :: brackets)
           | TLBracket => step (TLBracket :: brackets)
           | TLBrace => step (TLBrace :: brackets)
           | TRBrace => step (pop_brackets TLBrace brackets)
           | TRBracket => step (pop_brackets TLBracket brackets)
           | TRParen => step (pop_brackets TLParen brackets)
           | _ => step brackets
           end
  end.
(** An upper bound on the number of further tokens. *)
Definition rec_fuel (st : pst) : nat := S (S (S (length (l_rest (s_lex st))))).

(** src/parser.rs:169-175 [Parser::read_from_stdin_and_next]. *)
Definition p_stdin (st : pst) : xres (text * span) :=
  match read_from_stdin (s_lex st) with
  | LPanic w => XPanic w
  | LOk d l =>
      match p_next (mkPst l (s_tok st) (s_span st) (s_peek st) (s_isrc st) (s_issues st) (s_arg st)
                          (s_delim st) (s_opts st) (s_permit st)) with
      | XOk _ st' => XOk d st'
      | XPanic w => XPanic w
      | XFuel => XFuel
      end
  end.

(** src/parser.rs:231, 252: message of the unquoted-identifier lint. *)
Definition msg_unquoted (v : text) : text :=
  txt "identifiers should be quoted as `" ++ v ++ txt "`".
(** src/parser.rs:278-282. *)
Definition msg_caps (v : text) : text :=
  txt "keyword " ++ v ++ txt " should be in ALL CAPS " ++ upper v.
(** [char::is_ascii_uppercase]. *)
Definition is_ascii_uppercase (c : N) : bool := between 65 90 c.

Definition exec {X} (o : op X) (st : pst) : xres X :=
  match o in op X return xres X with
  | OTok => XOk (s_tok st) st
  | OSpan => XOk (s_span st) st
  | ONext => p_next st
  | OPeek => p_peek st
  | OIssue l m s fr => p_issue l m s fr st
  | OLintIdent l v s =>
      if o_warn_unquoted (s_opts st) then p_issue l (msg_unquoted v) s [] st else XOk tt st
  | OLintCaps v s =>
      if negb (forallb is_ascii_uppercase v) && o_warn_caps (s_opts st)
      then p_issue Warning (msg_caps v) s [] st else XOk tt st
  | OArg => XOk (s_arg st)
      (mkPst (s_lex st) (s_tok st) (s_span st) (s_peek st) (s_isrc st) (s_issues st)
             (s_arg st + 1)%N (s_delim st) (s_opts st) (s_permit st))
  | ODelim => XOk (s_delim st) st
  | OSetDelim t => XOk tt
      (mkPst (s_lex st) (s_tok st) (s_span st) (s_peek st) (s_isrc st) (s_issues st)
             (s_arg st) t (s_opts st) (s_permit st))
  | OPermit => XOk (s_permit st) st
  | OSetPermit b => XOk tt
      (mkPst (s_lex st) (s_tok st) (s_span st) (s_peek st) (s_isrc st) (s_issues st)
             (s_arg st) (s_delim st) (s_opts st) b)
  | ODialect => XOk (o_dialect (s_opts st)) st
  | OArguments => XOk (o_arguments (s_opts st)) st
  | OListHack => XOk (o_list_hack (s_opts st)) st
  | ORecover f => recover_f (rec_fuel st) f [] st
  | OStdin => p_stdin st
  end.

(** ** Meaning of programs *)
Inductive res (A : Type) :=
| ROk (a : A) (st : pst)   (* Ok(a) *)
| RErr (st : pst)          (* Err(ParseError::Unrecovered) *)
| RPanic (w : panic)       (* the thread panics *)
| RFuel.                   (* the model's recursion budget is exhausted *)
Arguments ROk {A} a st. Arguments RErr {A} st. Arguments RPanic {A} w. Arguments RFuel {A}.

Fixpoint run {A} (p : prog A) (st : pst) : res A :=
  match p with
  | Ret a => ROk a st
  | Fail => RErr st
  | Panic w => RPanic w
  | OutOfFuel => RFuel
  | Op o k => match exec o st with
              | XOk x st' => run (k x) st'
              | XPanic w => RPanic w
              | XFuel => RFuel
              end
  | Try p k => match run p st with
               | ROk x st' => run (k (Some x)) st'
               | RErr st' => run (k None) st'
               | RPanic w => RPanic w
               | RFuel => RFuel
               end
  end.

(** ** The [Parser] methods *)
Definition token : prog tok := perf OTok.
Definition cur_span : prog span := perf OSpan.
Definition next : prog unit := perf ONext.
Definition peek : prog tok := perf OPeek.
Definition dialect_ : prog dialect := perf ODialect.
(** src/parser.rs:194-208 [Parser::err], [Parser::warn] (with fragments). *)
Definition err_frags (m : text) (s : span) (fr : list (text * span)) : prog unit :=
  perf (OIssue Error m s fr).
Definition err (m : string) (s : span) : prog unit := err_frags (txt m) s [].
Definition warn (m : string) (s : span) : prog unit := perf (OIssue Warning (txt m) s []).

(** src/parser.rs:190-192 [Parser::expected_error]. *)
Definition expected_error (name : string) : prog unit :=
  s <- cur_span ;; err_frags (txt "Expected '" ++ txt name ++ txt "' here") s [].
(** src/parser.rs:210-213 [Parser::expected_failure]. *)
Definition expected_failure {A} (name : string) : prog A :=
  expected_error name ;;; Fail.
(** src/parser.rs:397-403 [Parser::err_here]. *)
Definition err_here {A} (m : string) : prog A := s <- cur_span ;; err m s ;;; Fail.
(** src/parser.rs:405-407 [Parser::ice]; [where_] is the text ["file:line"]. *)
Definition ice {A} (where_ : string) : prog A :=
  err_here ("Internal compiler error at " ++ where_)%string.
(** src/parser.rs:409-411 [Parser::todo]. *)
Definition todo {A} (where_ : string) : prog A :=
  err_here ("Not yet implemented at " ++ where_)%string.

(** src/parser.rs:323-327 [Parser::consume]. *)
Definition consume : prog span := s <- cur_span ;; next ;;; Ret s.

(** src/parser.rs:149-167 [Parser::recovered].  [d] is [T::default()]. *)
Definition recover (e : tok -> bool) : prog unit :=
  b <- perf (ORecover e) ;; if b then Ret tt else Fail.
Definition recovered_end (expected : string) (e : tok -> bool) : prog unit :=
  t <- token ;;
  if e t then Ret tt else expected_error expected ;;; recover e.
Definition recovered {A} (d : A) (expected : string) (e : tok -> bool) (p : prog A) : prog A :=
  a <- Try p (fun r => match r with
                       | Some v => Ret v
                       | None => recover e ;;; Ret d
                       end) ;;
  recovered_end expected e ;;;
  Ret a.
(** [recovered] around a closure that pushes into a captured vector: the pushed
    elements survive a failure of the closure, so the closure returns the vector
    together with whether it ended in [Ok] (see [loop_acc]). *)
Definition recovered_acc {A} (expected : string) (e : tok -> bool) (p : prog (A * bool)) : prog A :=
  '(a, ok) <- p ;;
  (if ok : bool then Ret tt else recover e) ;;;
  recovered_end expected e ;;;
  Ret a.

(** [loop { ... }] with a fuel bound. *)
Fixpoint loop {S A} (n : nat) (body : S -> prog (S + A)) (s : S) : prog A :=
  match n with
  | O => OutOfFuel
  | Datatypes.S n => r <- body s ;; match r with inl s' => loop n body s' | inr a => Ret a end
  end.
(** [loop { ... }] inside a [recovered] closure, with captured state [s].  [Continue]
    and [Break] are the ends of an iteration, [Abort] a failure after the state has
    been updated; on an ordinary failure the state before the iteration is kept.
    The result says whether the closure ended in [Ok]. *)
Inductive ctl := Continue | Break | Abort.
Fixpoint loop_acc {S} (n : nat) (body : S -> prog (S * ctl)) (s : S) : prog (S * bool) :=
  match n with
  | O => OutOfFuel
  | Datatypes.S n =>
      Try (body s) (fun r => match r with
                             | None => Ret (s, false)
                             | Some (s', Continue) => loop_acc n body s'
                             | Some (s', Break) => Ret (s', true)
                             | Some (s', Abort) => Ret (s', false)
                             end)
  end.

(** src/identifier.rs:19-25 [Identifier]. *)
Record ident := mkIdent { id_value : text; id_span : span }.
(** src/sstring.rs:17-23 [SString]. *)
Record sstring := mkSString { ss_value : text; ss_span : span }.

(** src/parser.rs:225, 245. *)
Definition msg_reserved (v : text) : text :=
  txt "'" ++ v ++ txt "' is a reserved identifier use `" ++ v ++ txt "`".

(** src/parser.rs:215-237 [Parser::token_to_plain_identifier]. *)
Definition token_to_plain_identifier (t : tok) (s : span) : prog ident :=
  match t with
  | TIdent v k =>
      (if kw_reserved k then err_frags (msg_reserved v) s []
       else if negb (kw_eqb k QUOTED_IDENTIFIER) then perf (OLintIdent Warning v s)
       else Ret tt) ;;;
      Ret (mkIdent v s)
  | _ => expected_failure "identifier"
  end.

(** src/parser.rs:239-269 [Parser::consume_plain_identifier].  The three-way
    [else if] is regrouped: the third condition requires a quoted identifier, the
    second excludes it. *)
Definition consume_plain_identifier : prog ident :=
  t <- token ;;
  match t with
  | TIdent v k =>
      s <- cur_span ;;
      d <- dialect_ ;;
      (if kw_reserved k then err_frags (msg_reserved v) s []
       else if negb (kw_eqb k QUOTED_IDENTIFIER) then perf (OLintIdent Error v s)
       else if is_postgresql d then err "quoted identifiers not supported by postgresql" s
       else Ret tt) ;;;
      c <- consume ;;
      Ret (mkIdent v c)
  | TDoubleQuotedString v =>
      d <- dialect_ ;;
      if is_postgresql d then c <- consume ;; Ret (mkIdent v c)
      else expected_failure "identifier"
  | _ => expected_failure "identifier"
  end.

(** src/parser.rs:271-290 [Parser::consume_keyword]. *)
Definition consume_keyword (k : string) : prog span :=
  t <- token ;;
  match t with
  | TIdent v k' =>
      if kw_eqb k' (KW k) then
        s <- cur_span ;;
        perf (OLintCaps v s) ;;;
        consume
      else expected_failure k
  | _ => expected_failure k
  end.

(** src/parser.rs:292-298 [Parser::consume_keywords] (never called with an empty slice). *)
Fixpoint consume_keywords_from (sp : span) (ks : list string) : prog span :=
  match ks with
  | [] => Ret sp
  | k :: ks => s <- consume_keyword k ;; consume_keywords_from (join s sp) ks
  end.
Definition consume_keywords (ks : list string) : prog span :=
  match ks with
  | [] => Panic PUnwrap
  | k :: ks => s <- consume_keyword k ;; consume_keywords_from s ks
  end.

(** src/parser.rs:300-305 [Parser::skip_keyword]; the [unwrap] is of a
    [consume_keyword] on the keyword just tested. *)
Definition skip_keyword (k : string) : prog (option span) :=
  t <- token ;;
  if is_kw t k then
    Try (consume_keyword k) (fun r => match r with Some s => Ret (Some s) | None => Panic PUnwrap end)
  else Ret None.

(** src/parser.rs:307-313 [Parser::consume_token]. *)
Definition consume_token (w : tok) : prog span :=
  t <- token ;;
  if tok_eqb t w then consume else expected_failure (tok_name w).

(** src/parser.rs:315-321 [Parser::skip_token]. *)
Definition skip_token (w : tok) : prog (option span) :=
  t <- token ;;
  if tok_eqb t w then s <- consume ;; Ret (Some s) else Ret None.

Definition contains (c : N) (t : text) : bool := existsb (N.eqb c) t.

(** The loop shared by the two decoders, src/parser.rs:44-54 and 63-73. *)
Fixpoint decode_loop (t : text) : text :=
  match t with
  | [] => []
  | c :: r => if (c =? 39)%N then
                39%N :: match r with [] => [] | _ :: r' => decode_loop r' end
              else c :: decode_loop r
  end.
(** src/parser.rs:39-57 [decode_single_quoted_string]. *)
Definition decode_single_quoted_string (t : text) : text :=
  if negb (contains 39 t) && negb (contains 92 t) then t else decode_loop t.
(** src/parser.rs:59-77 [decode_double_quoted_string] (it looks for single
    quotes in the loop, as the source does). *)
Definition decode_double_quoted_string (t : text) : text :=
  if negb (contains 34 t) && negb (contains 92 t) then t else decode_loop t.

Definition string_token (t : tok) : option text :=
  match t with
  | TSingleQuotedString v => Some (decode_single_quoted_string v)
  | TDoubleQuotedString v => Some (decode_double_quoted_string v)
  | _ => None
  end.

(** src/parser.rs:329-361 [Parser::consume_string]: the first literal, then the
    loop over the following ones; [n] is loop fuel. *)
Definition consume_string (n : nat) : prog sstring :=
  t <- token ;;
  match string_token t with
  | None => expected_failure "string"
  | Some a =>
      b <- consume ;;
      loop n (fun ab : text * span =>
                t <- token ;;
                match string_token t with
                | Some v => s <- consume ;; Ret (inl (fst ab ++ v, join (snd ab) s))
                | None => Ret (inr (mkSString (fst ab) (snd ab)))
                end) (a, b)
  end.

(** [<T as FromStr>::from_str] on a string of decimal digits: exact value, or
    an error above [T::MAX]. *)
Definition digits_value (t : text) : N := fold_left (fun v c => (v * 10 + (c - 48))%N) t 0%N.
Definition u8_max : N := 255%N.
Definition u32_max : N := (2 ^ 32 - 1)%N.
Definition u64_max : N := (2 ^ 64 - 1)%N.

(** src/parser.rs:363-378 [Parser::consume_int] at an unsigned type with maximum [max]. *)
Definition consume_int (max : N) : prog (N * span) :=
  t <- token ;;
  match t with
  | TInteger v =>
      n <- (if (digits_value v <=? max)%N then Ret (digits_value v)
            else s <- cur_span ;; err "integer outside range" s ;;; Ret 0%N) ;;
      s <- consume ;;
      Ret (n, s)
  | _ => expected_failure "integer"
  end.

(** src/parser.rs:380-395 [Parser::consume_float] at f64.  The value is kept as
    the literal text; parsing a digit string with a period as f64 never fails. *)
Definition consume_float : prog (text * span) :=
  t <- token ;;
  match t with
  | TFloat v => s <- consume ;; Ret (v, s)
  | _ => expected_failure "float"
  end.

(** An [Option] that is [expect]ed / [unwrap]ped. *)
Definition expect {A} (o : option A) (w : panic) : prog A :=
  match o with Some a => Ret a | None => Panic w end.

(** src/parser.rs:80-94 [Parser::new]; [LPanic] when the first token panics. *)
Definition parser_new (src isrc : text) (issues : list issue) (o : options) : xres pst :=
  match next_token (lex_new src) with
  | LPanic w => XPanic w
  | LOk (t, sp) l =>
      let st := mkPst l t sp None isrc issues 0%N TSemiColon o false in XOk st st
  end.

Definition is_some {A} (o : option A) : bool := match o with Some _ => true | None => false end.
Definition osp {A} (f : A -> span) (o : option A) : option span := option_map f o.

(** [let mut v = Vec::new(); loop { v.push(p?); if skip_token(Comma).is_none() { break } }]. *)
Definition sep_list {A} (n : nat) (p : prog A) : prog (list A) :=
  loop n (fun l : list A =>
            a <- p ;;
            c <- skip_token TComma ;;
            match c with Some _ => Ret (inl (l ++ [a])) | None => Ret (inr (l ++ [a])) end) [].
(** The same loop inside [recovered(expected, RParen, ..)], pushing into a captured vector. *)
Definition sep_list_recovered {A} (n : nat) (expected : string) (p : prog A) : prog (list A) :=
  recovered_acc expected (fun t => tok_eqb t TRParen)
    (loop_acc n (fun l : list A =>
                   a <- p ;;
                   c <- skip_token TComma ;;
                   Ret (l ++ [a], match c with Some _ => Continue | None => Break end)) []).
Definition rparen_or_comma (t : tok) : bool := tok_eqb t TRParen || tok_eqb t TComma.
(** [loop { recovered("')' or ','", .., |p| { v.push(p()?); Ok(()) })?; if skip_token(Comma).is_none() { break } }]. *)
Definition recovered_list {A} (n : nat) (p : prog A) : prog (list A) :=
  loop n (fun l : list A =>
            a <- recovered None "')' or ','" rparen_or_comma (a <- p ;; Ret (Some a)) ;;
            let l := match a with Some a => l ++ [a] | None => l end in
            c <- skip_token TComma ;;
            match c with Some _ => Ret (inl l) | None => Ret (inr l) end) [].
(** [loop { recovered("')' or ','", .., ..)?; if RParen { break }; consume_token(Comma)?; }]. *)
Definition recovered_list2 {A} (n : nat) (p : prog A) : prog (list A) :=
  loop n (fun l : list A =>
            a <- recovered None "')' or ','" rparen_or_comma (a <- p ;; Ret (Some a)) ;;
            let l := match a with Some a => l ++ [a] | None => l end in
            t <- token ;;
            if tok_eqb t TRParen then Ret (inr l)
            else consume_token TComma ;;; Ret (inl l)) [].

(** A [match] on keywords as a table: the first row whose keyword is the token. *)
Fixpoint kw_assoc {A} (tbl : list (string * A)) (t : tok) : option (string * A) :=
  match tbl with
  | [] => None
  | (k, v) :: r => if is_kw t k then Some (k, v) else kw_assoc r t
  end.

