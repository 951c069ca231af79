(** Model of the parts of the public API around the parser that print or compare:
    [Display for Issues] (src/issue.rs:139-170) and the comparison of identifiers
    (src/identifier.rs:27-81). *)
From Verif Require Export Parser.
Local Open Scope string_scope.
Local Open Scope list_scope.

(** Decimal digits of a number, as [Display for usize] prints it; [n] is fuel. *)
Fixpoint dec_digits (n : nat) (v : N) : text :=
  match n with
  | O => []
  | S n => if (v <? 10)%N then [(v + 48)%N] else dec_digits n (v / 10) ++ [(v mod 10 + 48)%N]
  end.
Definition show_nat (v : nat) : text := dec_digits (S v) (N.of_nat v).

(** src/issue.rs:150-154 and 158-162: [src[..start].chars().filter(|v| *v == '\n').count() + 1];
    [None]: the slice panics. *)
Definition line_of (src : text) (start : nat) : option nat :=
  option_map (fun t => S (length (filter (fun c => (c =? 10)%N) t))) (slice src 0 start).

Definition nl : text := [10%N].
(** src/issue.rs:157-163: one fragment. *)
Definition show_fragment (src : text) (f : fragment) : option text :=
  option_map (fun line => txt "  " ++ f_message f ++ nl ++
    txt "    At line " ++ show_nat line ++ txt ", code " ++ f_segment f ++ nl) (line_of src (fst (f_span f))).
Fixpoint concat_opt (l : list (option text)) : option text :=
  match l with
  | [] => Some []
  | Some t :: r => option_map (app t) (concat_opt r)
  | None :: _ => None
  end.
(** src/issue.rs:145-164: one issue. *)
Definition show_issue (src : text) (i : issue) : option text :=
  match line_of src (fst (i_span i)), concat_opt (map (show_fragment src) (i_fragments i)) with
  | Some line, Some frs => Some (
      txt (match i_level i with Warning => "  Warning " | Error => "  Error " end) ++ i_message i ++ nl ++
      txt "    At line " ++ show_nat line ++ txt ", code " ++ i_segment i ++ nl ++ frs)
  | _, _ => None
  end.
(** src/issue.rs:139-170 [Display for Issues]. *)
Definition show_issues (src : text) (l : list issue) : option text :=
  match l with
  | [] => Some (txt "No issues" ++ nl)
  | _ => option_map (fun t => txt "Issues:" ++ nl ++ t) (concat_opt (map (show_issue src) l))
  end.
(** src/issue.rs:134-136 [Issues::is_ok]. *)
Definition issues_ok (l : list issue) : bool := match l with [] => true | _ => false end.

(** [Ord for str]: lexicographic on the UTF-8 bytes, which is lexicographic on the
    characters (UTF-8 preserves the order of code points). *)
Fixpoint text_cmp (a b : text) : comparison :=
  match a, b with
  | [], [] => Eq
  | [], _ :: _ => Lt
  | _ :: _, [] => Gt
  | x :: a, y :: b => match (x ?= y)%N with Eq => text_cmp a b | c => c end
  end.
(** src/identifier.rs:27-31 [PartialEq], 40-44 [Ord], 34-38 [PartialOrd], 52-56 [Borrow<str>]. *)
Definition ident_eq (a b : ident) : bool := text_eqb (id_value a) (id_value b).
Definition ident_cmp (a b : ident) : comparison := text_cmp (id_value a) (id_value b).
Definition ident_partial_cmp (a b : ident) : option comparison := Some (ident_cmp a b).
Definition ident_borrow (a : ident) : text := id_value a.
