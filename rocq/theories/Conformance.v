(** Generated by tools/gen_conformance.py.  The doc-tests and unit tests of the project
    that assert [issues.is_ok()], run on the model: no issues are reported and, where the test
    matches on it, the last statement is of the expected kind.  A sanity check of the model. *)
From Verif Require Import Api.
Local Open Scope string_scope.
Definition kind_of (s : stmt) : string :=
  match s with
  | SCreateIndex _ => "CreateIndex"
  | SCreateTable _ => "CreateTable"
  | SCreateView _ => "CreateView"
  | SCreateTrigger _ => "CreateTrigger"
  | SCreateFunction _ => "CreateFunction"
  | SSelect _ => "Select"
  | SDelete _ => "Delete"
  | SInsertReplace _ => "InsertReplace"
  | SUpdate _ => "Update"
  | SDropIndex _ => "DropIndex"
  | SDropTable _ => "DropTable"
  | SDropFunction _ => "DropFunction"
  | SDropProcedure _ => "DropProcedure"
  | SDropEvent _ => "DropEvent"
  | SDropDatabase _ => "DropDatabase"
  | SDropServer _ => "DropServer"
  | SDropTrigger _ => "DropTrigger"
  | SDropView _ => "DropView"
  | SSet _ => "Set"
  | SSignal _ => "Signal"
  | SAlterTable _ => "AlterTable"
  | SBlock _ => "Block"
  | SBegin _ => "Begin"
  | SEnd _ => "End"
  | SCommit _ => "Commit"
  | SStartTransaction _ => "StartTransaction"
  | SIf _ => "If"
  | SInvalid _ => "Invalid"
  | SUnion _ => "Union"
  | SCase _ => "Case"
  | SCopy _ => "Copy"
  | SStdin _ => "Stdin"
  | SCreateTypeEnum _ => "CreateTypeEnum"
  | SDo _ => "Do"
  | STruncateTable _ => "TruncateTable"
  | SRenameTable _ => "RenameTable"
  | SWithQuery _ => "WithQuery"
  | SReturn _ => "Return"
  end.
Definition last_kind (l : list stmt) : string :=
  match rev l with s :: _ => kind_of s | [] => "" end.
Definition kind_ok (k : option string) (s : string) : bool :=
  match k with None => true | Some k => String.eqb k s end.
Definition ok_statements (k : option string) (src : text) (o : options) : bool :=
  match parse_statements src [] o with Returns l [] => kind_ok k (last_kind l) | _ => false end.
Definition ok_statement (k : option string) (src : text) (o : options) : bool :=
  match parse_statement_api src [] o with Returns (Some s) [] => kind_ok k (kind_of s) | _ => false end.
(** src/alter.rs:607 *)
Example conf_1 : ok_statements (Some "AlterTable") (txt "ALTER TABLE `t1`
    MODIFY `id` int(11) NOT NULL AUTO_INCREMENT,
    ADD CONSTRAINT `t1_t2` FOREIGN KEY (`two`) REFERENCES `t2` (`id`);") (opt_dialect MariaDB default_options) = true.
Proof. vm_compute. reflexivity. Qed.
(** src/alter.rs:607 *)
Example conf_2 : ok_statements (Some "AlterTable") (txt "ALTER TABLE t1
    ALTER COLUMN id DROP NOT NULL,
    ALTER COLUMN id SET NOT NULL,
    ALTER COLUMN id SET DEFAULT 47,
    ALTER COLUMN id DROP DEFAULT,
    ALTER COLUMN id TYPE int;") (opt_dialect PostgreSQL default_options) = true.
Proof. vm_compute. reflexivity. Qed.
(** src/create.rs:251 *)
Example conf_3 : ok_statements (Some "CreateTable") (txt "CREATE TABLE `parts` (
        `id` int(11) NOT NULL COMMENT 'THIS IS THE ID FIELD',
        `hash` varchar(64) COLLATE utf8_bin NOT NULL,
        `destination` varchar(64) COLLATE utf8_bin NOT NULL,
        `part` varchar(64) COLLATE utf8_bin NOT NULL,
        `success` tinyint(1) NOT NULL
    ) ENGINE=InnoDB DEFAULT CHARSET=utf8 COLLATE=utf8_bin;") (opt_dialect MariaDB default_options) = true.
Proof. vm_compute. reflexivity. Qed.
(** src/create.rs:306 *)
Example conf_4 : ok_statements (Some "CreateView") (txt "CREATE ALGORITHM=UNDEFINED DEFINER=`phpmyadmin`@`localhost` SQL SECURITY DEFINER
   VIEW `v1`
   AS SELECT
        `t1`.`id` AS `id`,
        `t1`.`c1` AS `c1`,
        (SELECT `t2`.`c2` FROM `t2` WHERE `t2`.`id` = `t1`.`c3`) AS `c2`
        FROM `t1` WHERE `t1`.`deleted` IS NULL;") (opt_dialect MariaDB default_options) = true.
Proof. vm_compute. reflexivity. Qed.
(** src/delete.rs:44 *)
Example conf_5 : ok_statements (Some "Delete") (txt "DELETE FROM t1 WHERE c1 IN (SELECT b.c1 FROM t1 b WHERE b.c2=0);") (opt_dialect MariaDB default_options) = true.
Proof. vm_compute. reflexivity. Qed.
(** src/delete.rs:44 *)
Example conf_6 : ok_statements (None) (txt "DELETE `t1` FROM `t1` LEFT JOIN `t2` ON `t1`.`t2_id`=`t2`.`id` WHERE `t2`.`key`='my_key';") (opt_dialect MariaDB default_options) = true.
Proof. vm_compute. reflexivity. Qed.
(** src/drop.rs:24 *)
Example conf_7 : ok_statements (Some "DropTable") (txt "DROP TABLE `Employees`, `Customers`;") (opt_dialect MariaDB default_options) = true.
Proof. vm_compute. reflexivity. Qed.
(** src/drop.rs:68 *)
Example conf_8 : ok_statements (Some "DropView") (txt "DROP VIEW `Employees`, `Customers`;") (opt_dialect MariaDB default_options) = true.
Proof. vm_compute. reflexivity. Qed.
(** src/drop.rs:109 *)
Example conf_9 : ok_statements (Some "DropDatabase") (txt "DROP DATABASE mydb;") (opt_dialect MariaDB default_options) = true.
Proof. vm_compute. reflexivity. Qed.
(** src/drop.rs:148 *)
Example conf_10 : ok_statements (Some "DropEvent") (txt "DROP EVENT myevent;") (opt_dialect MariaDB default_options) = true.
Proof. vm_compute. reflexivity. Qed.
(** src/drop.rs:186 *)
Example conf_11 : ok_statements (Some "DropFunction") (txt "DROP FUNCTION myfunc;") (opt_dialect MariaDB default_options) = true.
Proof. vm_compute. reflexivity. Qed.
(** src/drop.rs:224 *)
Example conf_12 : ok_statements (Some "DropProcedure") (txt "DROP PROCEDURE myproc;") (opt_dialect MariaDB default_options) = true.
Proof. vm_compute. reflexivity. Qed.
(** src/drop.rs:262 *)
Example conf_13 : ok_statements (Some "DropServer") (txt "DROP SERVER myserver;") (opt_dialect MariaDB default_options) = true.
Proof. vm_compute. reflexivity. Qed.
(** src/drop.rs:301 *)
Example conf_14 : ok_statements (Some "DropTrigger") (txt "DROP TRIGGER IF EXISTS `foo`.`mytrigger`;") (opt_dialect MariaDB default_options) = true.
Proof. vm_compute. reflexivity. Qed.
(** src/drop.rs:536 *)
Example conf_15 : ok_statements (Some "DropIndex") (txt "DROP INDEX IF EXISTS `myindex` ON `bar`;") (opt_dialect MariaDB default_options) = true.
Proof. vm_compute. reflexivity. Qed.
(** src/drop.rs:554 *)
Example conf_16 : ok_statements (Some "DropIndex") (txt "DROP INDEX IF EXISTS ""myindex"";") (opt_dialect PostgreSQL default_options) = true.
Proof. vm_compute. reflexivity. Qed.
(** src/insert_replace.rs:163 *)
Example conf_17 : ok_statement (None) (txt "INSERT INTO person (first_name, last_name) VALUES ('John', 'Doe')") (opt_dialect MariaDB default_options) = true.
Proof. vm_compute. reflexivity. Qed.
(** src/insert_replace.rs:163 *)
Example conf_18 : ok_statement (None) (txt "INSERT INTO contractor SELECT * FROM person WHERE status = 'c'") (opt_dialect MariaDB default_options) = true.
Proof. vm_compute. reflexivity. Qed.
(** src/insert_replace.rs:163 *)
Example conf_19 : ok_statement (Some "InsertReplace") (txt "INSERT INTO account (`key`, `value`) VALUES ('foo', 42)
            ON DUPLICATE KEY UPDATE `value`=`value`+42") (opt_dialect MariaDB default_options) = true.
Proof. vm_compute. reflexivity. Qed.
(** src/insert_replace.rs:163 *)
Example conf_20 : ok_statement (Some "InsertReplace") (txt "REPLACE INTO t2 VALUES (1,'Leopard'),(2,'Dog')") (opt_dialect MariaDB default_options) = true.
Proof. vm_compute. reflexivity. Qed.
(** src/insert_replace.rs:207 *)
Example conf_21 : ok_statement (None) (txt "INSERT INTO contractor SELECT * FROM person WHERE status = $1 ON CONFLICT (name) DO NOTHING") (opt_arguments ArgDollar (opt_dialect PostgreSQL default_options)) = true.
Proof. vm_compute. reflexivity. Qed.
(** src/lib.rs:267 *)
Example conf_22 : ok_statement (None) (txt "ALTER TABLE `test` ADD COLUMN `test1` VARCHAR (128) NULL DEFAULT NULL") (opt_warn_unquoted false (opt_arguments ArgQuestionMark (opt_dialect MariaDB default_options))) = true.
Proof. vm_compute. reflexivity. Qed.
(** src/lib.rs:280 *)
Example conf_23 : ok_statement (None) (txt "DROP TABLE IF EXISTS `test_schema`.`test`") (opt_warn_unquoted false (opt_arguments ArgQuestionMark (opt_dialect MariaDB default_options))) = true.
Proof. vm_compute. reflexivity. Qed.
(** src/lib.rs:293 *)
Example conf_24 : ok_statement (None) (txt "CREATE INDEX `idx_test` ON  test_schema.test(`col_test`)") (opt_warn_unquoted false (opt_arguments ArgQuestionMark (opt_dialect MariaDB default_options))) = true.
Proof. vm_compute. reflexivity. Qed.
(** src/lib.rs:306 *)
Example conf_25 : ok_statement (None) (txt "CREATE INDEX idx_test ON test(path text_pattern_ops)") (opt_warn_unquoted false (opt_arguments ArgDollar (opt_dialect PostgreSQL default_options))) = true.
Proof. vm_compute. reflexivity. Qed.
(** src/lib.rs:319 *)
Example conf_26 : ok_statement (None) (txt "DROP INDEX `idx_test` ON  test_schema.test") (opt_warn_unquoted false (opt_arguments ArgQuestionMark (opt_dialect MariaDB default_options))) = true.
Proof. vm_compute. reflexivity. Qed.
(** src/lib.rs:333 *)
Example conf_27 : ok_statement (None) (txt "CREATE OR REPLACE VIEW `test_schema`.`view_test` AS SELECT * FROM `test_schema`.`test`") (opt_warn_unquoted false (opt_arguments ArgQuestionMark (opt_dialect MariaDB default_options))) = true.
Proof. vm_compute. reflexivity. Qed.
(** src/lib.rs:348 *)
Example conf_28 : ok_statement (None) (txt "DROP VIEW `test_schema`.`view_test`") (opt_warn_unquoted false (opt_arguments ArgQuestionMark (opt_dialect MariaDB default_options))) = true.
Proof. vm_compute. reflexivity. Qed.
(** src/lib.rs:362 *)
Example conf_29 : ok_statement (None) (txt "TRUNCATE TABLE `test_schema`.`table_test`") (opt_warn_unquoted false (opt_arguments ArgQuestionMark (opt_dialect MariaDB default_options))) = true.
Proof. vm_compute. reflexivity. Qed.
(** src/lib.rs:376 *)
Example conf_30 : ok_statement (None) (txt "RENAME TABLE `test_schema`.`table_test` To `test_schema`.`table_new_test`") (opt_warn_unquoted false (opt_arguments ArgQuestionMark (opt_dialect MariaDB default_options))) = true.
Proof. vm_compute. reflexivity. Qed.
(** src/lib.rs:390 *)
Example conf_31 : ok_statement (None) (txt "
        WITH monkeys AS (DELETE FROM thing RETURNING id),
        baz AS (SELECT id FROM cats WHERE comp IN (monkeys))
        DELETE FROM dogs WHERE cat IN (cats)") (opt_warn_unquoted false (opt_arguments ArgQuestionMark (opt_dialect PostgreSQL default_options))) = true.
Proof. vm_compute. reflexivity. Qed.
(** src/lib.rs:407 *)
Example conf_32 : ok_statement (None) (txt "SELECT `a` FROM `b` FORCE INDEX FOR GROUP BY (`b`, `c`)") (opt_warn_unquoted false (opt_arguments ArgQuestionMark (opt_dialect MariaDB default_options))) = true.
Proof. vm_compute. reflexivity. Qed.
(** src/rename.rs:28 *)
Example conf_33 : ok_statements (Some "RenameTable") (txt "RENAME TABLE `t1` TO `t2`;") (opt_dialect MariaDB default_options) = true.
Proof. vm_compute. reflexivity. Qed.
(** src/select.rs:574 *)
Example conf_34 : ok_statement (Some "Select") (txt "SELECT f1,f2 FROM t1 WHERE f3<=10 AND f4='y'") (opt_dialect MariaDB default_options) = true.
Proof. vm_compute. reflexivity. Qed.
(** src/select.rs:574 *)
Example conf_35 : ok_statement (Some "Select") (txt "SELECT CAST(NULL AS CHAR)") (opt_dialect MariaDB default_options) = true.
Proof. vm_compute. reflexivity. Qed.
(** src/select.rs:574 *)
Example conf_36 : ok_statement (Some "Select") (txt "SELECT * FROM t1, d2.t2 FOR SHARE OF t1, t2 NOWAIT") (opt_dialect MariaDB default_options) = true.
Proof. vm_compute. reflexivity. Qed.
(** src/truncate.rs:9 *)
Example conf_37 : ok_statements (Some "TruncateTable") (txt "TRUNCATE TABLE `t1`;") (opt_dialect MariaDB default_options) = true.
Proof. vm_compute. reflexivity. Qed.
(** src/update.rs:44 *)
Example conf_38 : ok_statement (Some "Update") (txt "UPDATE tab1, tab2 SET tab1.column1 = value1, tab1.column2 = value2 WHERE tab1.id = tab2.id") (opt_dialect MariaDB default_options) = true.
Proof. vm_compute. reflexivity. Qed.
(** src/with_query.rs:37 *)
Example conf_39 : ok_statements (Some "WithQuery") (txt "WITH ids AS (DELETE FROM things WHERE number=42) INSERT INTO deleted (id) SELECT id FROM ids;") (opt_dialect PostgreSQL default_options) = true.
Proof. vm_compute. reflexivity. Qed.
