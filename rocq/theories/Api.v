(** The public entry points, src/lib.rs:229-266, and the recursion of the parser. *)
From Verif Require Export Statement.

(** Tying the knot.  The Rust functions call each other recursively without bound; the
    model gives them a recursion budget, [knot n] being the functions that may nest
    [n] deep.  [OutOfFuel] is what a model function does when the budget is used up;
    [PropsSafe.v] proves that this never happens with the budget used by
    [parse_statements]/[parse_statement] below (so that the result is the one of the
    unbounded recursion), except for the inputs on which the Rust code loops forever. *)
Fixpoint knot (n : nat) : recs :=
  match n with
  | O => mkRecs 1 (fun _ => OutOfFuel) OutOfFuel OutOfFuel
  | S n' =>
      let r := knot n' in
      mkRecs (S n) (parse_expression r) (parse_compound_query r) (parse_statement r)
  end.

(** What a call of an entry point does: return a value and leave the issues in the
    caller's [Issues], panic, or use up the budget of the model. *)
Inductive outcome (A : Type) :=
| Returns (a : A) (i : list issue)
| Panics (w : panic)
| NoFuel.
Arguments Returns {A} a i. Arguments Panics {A} w. Arguments NoFuel {A}.

Definition outcome_of {A} (r : res A) : outcome A :=
  match r with
  | ROk a st => Returns a (s_issues st)
  | RErr _ => Panics PUnwrap       (* an entry point cannot return [Err] *)
  | RPanic w => Panics w
  | RFuel => NoFuel
  end.

(** src/lib.rs:233-240 [parse_statements] with budget [n].  [isrc] and [issues] are the
    fields of the [Issues] that is passed in. *)
Definition parse_statements_n (n : nat) (src isrc : text) (issues : list issue) (o : options)
  : outcome (list stmt) :=
  match parser_new src isrc issues o with
  | XOk st _ => outcome_of (run (parse_statements_loop (knot n)) st)
  | XPanic w => Panics w
  | XFuel => NoFuel
  end.

(** src/lib.rs:251-265: the body of [parse_statement] after [Parser::new]. *)
Definition parse_statement_body (r : recs) : prog (option stmt) :=
  Try (parse_statement r) (fun s =>
    match s with
    | Some (Some v) =>
        t <- token ;;
        (if negb (tok_eqb t TEof) then expected_error "Unexpected token after statement" else Ret tt) ;;;
        Ret (Some v)
    | Some None => expected_error "Statement" ;;; Ret None
    | None => Ret None
    end).
(** src/lib.rs:246-265 [parse_statement] with budget [n]. *)
Definition parse_statement_n (n : nat) (src isrc : text) (issues : list issue) (o : options)
  : outcome (option stmt) :=
  match parser_new src isrc issues o with
  | XOk st _ => outcome_of (run (parse_statement_body (knot n)) st)
  | XPanic w => Panics w
  | XFuel => NoFuel
  end.

(** The budget used by the entry points below. *)
Definition budget (src : text) : nat := S (S (length src)).
(** src/lib.rs:233-240 [parse_statements]: [issues] is [Issues::new(src)] unless given. *)
Definition parse_statements (src : text) (issues : list issue) (o : options) : outcome (list stmt) :=
  parse_statements_n (budget src) src src issues o.
(** src/lib.rs:246-265 [parse_statement]. *)
Definition parse_statement_api (src : text) (issues : list issue) (o : options) : outcome (option stmt) :=
  parse_statement_n (budget src) src src issues o.
