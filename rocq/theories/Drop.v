(** Model of src/drop.rs, src/truncate.rs and src/rename.rs. *)
From Verif Require Export Alter.

(** src/drop.rs:387-402, 403-418, 451-466, 502-524: [DROP kind [IF EXISTS] qualified_name]. *)
Definition parse_drop_q (n : nat) (drop_span : span) (k : string) : prog drop_q :=
  s <- consume_keyword k ;;
  ie <- parse_if_exists ;;
  q <- parse_qualified_name n ;;
  Ret (mkDropQ drop_span s ie q).
(** src/drop.rs:370-386, 471-486: [DROP kind [IF EXISTS] identifier]. *)
Definition parse_drop_i (drop_span : span) (k : string) : prog drop_i :=
  s <- consume_keyword k ;;
  ie <- parse_if_exists ;;
  i <- consume_plain_identifier ;;
  Ret (mkDropI drop_span s ie i).
(** src/drop.rs:419-450. *)
Definition parse_drop_index (n : nat) (drop_span : span) : prog drop_index :=
  s <- consume_keyword "INDEX" ;;
  ie <- parse_if_exists ;;
  i <- consume_plain_identifier ;;
  o <- skip_keyword "ON" ;;
  on <- match o with
        | Some s => q <- parse_qualified_name n ;; Ret (Some (s, q))
        | None => Ret None
        end ;;
  let v := mkDropIndex drop_span s ie i on in
  d <- dialect_ ;;
  (if negb (is_some on) && is_maria d
   then err_at "On required for index drops in MariaDb" (spn v) else Ret tt) ;;;
  (if is_some on && is_postgresql d
   then err_at "On not supported for index drops in PostgreSQL" (spn v) else Ret tt) ;;;
  Ret v.

(** src/drop.rs:338-531 [parse_drop]. *)
Definition parse_drop (n : nat) : prog stmt :=
  drop_span <- consume_keyword "DROP" ;;
  temporary <- skip_keyword "TEMPORARY" ;;
  t <- token ;;
  if is_kw t "TABLE" then
    s <- consume_keyword "TABLE" ;;
    ie <- parse_if_exists ;;
    tables <- sep_list n (parse_qualified_name n) ;;
    d <- dialect_ ;;
    cascade <- (if is_postgresql d then skip_keyword "CASCADE" else Ret None) ;;
    Ret (SDropTable (mkDropTable drop_span temporary s ie tables cascade))
  else if is_kw t "DATABASE" then v <- parse_drop_i drop_span "DATABASE" ;; Ret (SDropDatabase v)
  else if is_kw t "SCHEMA" then v <- parse_drop_i drop_span "SCHEMA" ;; Ret (SDropDatabase v)
  else if is_kw t "EVENT" then v <- parse_drop_q n drop_span "EVENT" ;; Ret (SDropEvent v)
  else if is_kw t "FUNCTION" then v <- parse_drop_q n drop_span "FUNCTION" ;; Ret (SDropFunction v)
  else if is_kw t "INDEX" then v <- parse_drop_index n drop_span ;; Ret (SDropIndex v)
  else if is_kw t "PROCEDURE" then v <- parse_drop_q n drop_span "PROCEDURE" ;; Ret (SDropProcedure v)
  else if is_kw t "SEQUENCE" then todo "src/drop.rs:469"
  else if is_kw t "SERVER" then v <- parse_drop_i drop_span "SERVER" ;; Ret (SDropServer v)
  else if is_kw t "TRIGGER" then v <- parse_drop_q n drop_span "TRIGGER" ;; Ret (SDropTrigger v)
  else if is_kw t "VIEW" then
    s <- consume_keyword "VIEW" ;;
    ie <- parse_if_exists ;;
    views <- sep_list n (parse_qualified_name n) ;;
    Ret (SDropView (mkDropView drop_span temporary s ie views))
  else if is_kw t "USER" then todo "src/drop.rs:527"
  else expected_failure "droppable".

(** src/truncate.rs:45-56 [parse_truncate_table]. *)
Definition parse_truncate_table (n : nat) : prog truncate_table :=
  s <- consume_keyword "TRUNCATE" ;;
  t <- skip_keyword "TABLE" ;;
  q <- parse_qualified_name n ;;
  Ret (mkTruncate s t q).

(** src/rename.rs:64-88 [parse_rename_table]. *)
Definition parse_rename_table (n : nat) : prog rename_table :=
  s <- consume_keyword "RENAME" ;;
  t <- skip_keyword "TABLE" ;;
  l <- sep_list n (a <- parse_qualified_name n ;;
                   to <- consume_keyword "TO" ;;
                   b <- parse_qualified_name n ;;
                   Ret (mkT2T a to b)) ;;
  Ret (mkRename s t l).
