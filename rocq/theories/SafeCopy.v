(** What the functions of src/statement.rs return: which ones return a COPY statement. *)
From Verif Require Export StdinFacts Statement SafeDml.
Local Open Scope string_scope.
Local Open Scope list_scope.

(** ** What a function can return *)
Definition rets {A} (P : A -> gst -> Prop) (p : prog A) : Prop :=
  forall S, match rung p S with GOk a S' => P a S' | _ => True end.
Lemma rets_bind A B (P : B -> gst -> Prop) (p : prog A) (k : A -> prog B) : (forall a, rets P (k a)) -> rets P (bind p k).
Proof. intros H S. rewrite rung_bind. destruct (rung p S); auto. apply H. Qed.
Lemma rets_bind2 A B (R : A -> gst -> Prop) (P : B -> gst -> Prop) (p : prog A) (k : A -> prog B) :
  rets R p -> (forall a S, R a S -> match rung (k a) S with GOk b S' => P b S' | _ => True end) -> rets P (bind p k).
Proof. intros H1 H2 S. rewrite rung_bind. specialize (H1 S). destruct (rung p S); auto. now apply H2. Qed.
Lemma rets_ret A (P : A -> gst -> Prop) a : (forall S, P a S) -> rets P (Ret a).
Proof. intros H S. apply H. Qed.
Lemma rets_expected A (P : A -> gst -> Prop) s : rets P (expected_failure s).
Proof. unfold expected_failure. apply rets_bind. intros a S. exact I. Qed.
Lemma rets_err_here A (P : A -> gst -> Prop) s : rets P (err_here s).
Proof. unfold err_here. apply rets_bind. intros a. apply rets_bind. intros b S. exact I. Qed.
Lemma rets_try A B (P : B -> gst -> Prop) (p : prog A) (k : option A -> prog B) : (forall a, rets P (k a)) -> rets P (Try p k).
Proof. intros H S. cbn [rung]. destruct (rung p S); auto; apply H. Qed.

Lemma p_next_peek st x st' : p_next st = XOk x st' -> s_peek st' = None.
Proof. unfold p_next. destruct (s_peek st) as [[? ?]|]; [|destruct (next_token _) as [[? ?] ?|]]; intros H; inversion H; reflexivity. Qed.
Definition np {A} (_ : A) (S : gst) : Prop := s_peek (g_st S) = None.
Lemma rets_consume : rets np consume.
Proof.
  unfold consume. apply rets_bind. intros s S. cbn. destruct (p_next (g_st S)) eqn:E; auto. apply p_next_peek in E. exact E.
Qed.
Lemma rets_consume_keyword k : rets np (consume_keyword k).
Proof.
  unfold consume_keyword. apply rets_bind. intros t. destruct t; try apply rets_expected.
  destruct (kw_eqb _ _); [|apply rets_expected]. do 2 (apply rets_bind; intros). apply rets_consume.
Qed.
(** A copy statement has been read up to a token that is followed by nothing read ahead. *)
Definition copy_np (s : stmt) (S : gst) : Prop := reads_from_stdin s = true -> s_peek (g_st S) = None.
Definition no_copy (s : stmt) (_ : gst) : Prop := reads_from_stdin s = false.
Ltac rets_go :=
  lazymatch goal with
  | |- rets _ (bind _ _) => apply rets_bind; intros; rets_go
  | |- rets _ (Ret _) => apply rets_ret; intros; first [reflexivity|discriminate|assumption]
  | |- rets _ (expected_failure _) => apply rets_expected
  | |- rets _ (todo _) => apply rets_err_here
  | |- rets _ (match ?x with _ => _ end) => destruct x; rets_go
  | |- rets _ (let x := ?v in @?f x) => change (rets no_copy (f v)); cbv beta; rets_go
  | _ => idtac
  end.
Class recs_cp (r : recs) := mkRecsCp {
  k_ncp : rets no_copy (r_compound r);
  k_cp : rets (fun s S => match s with Some s => copy_np s S | None => True end) (r_stmt r) }.
Lemma create_ncp r : rets no_copy (parse_create r).
Proof.
  unfold parse_create, parse_create_index, parse_create_table, parse_create_view, parse_create_function, parse_create_trigger, parse_create_type.
  rets_go.
Qed.
Lemma drop_ncp n : rets no_copy (parse_drop n).
Proof. unfold parse_drop. rets_go. Qed.
Lemma alter_ncp n : rets no_copy (parse_alter n).
Proof. unfold parse_alter, parse_alter_table. rets_go. Qed.
Lemma do_ncp n : rets no_copy (parse_do n).
Proof. unfold parse_do. rets_go. Qed.
Lemma pmap_id A (P : A -> gst -> Prop) (p : prog A) : rets P p -> rets (fun s S => match s with Some s => P s S | None => True end) (pmap id p).
Proof. intros H. eapply rets_bind2; [exact H|]. intros a S X. exact X. Qed.
Lemma ncp_cp s S : no_copy s S -> copy_np s S.
Proof. unfold no_copy, copy_np. congruence. Qed.
Lemma rets_imp A (P Q : A -> gst -> Prop) p : (forall a S, P a S -> Q a S) -> rets P p -> rets Q p.
Proof. intros H X S. specialize (X S). destruct (rung p S); auto. Qed.

(** Recovery returns either the default or what the program returned. *)
Lemma rets_recovered A (R : A -> Prop) (dflt : A) name e (p : prog A) :
  R dflt -> rets (fun a _ => R a) p -> rets (fun a _ => R a) (recovered dflt name e p).
Proof.
  intros H1 H2. unfold recovered. eapply rets_bind2 with (R := fun a _ => R a).
  - intros S. cbn [rung]. specialize (H2 S). destruct (rung p S); auto; try exact H2.
    change (match rung (bind (recover e) (fun _ => Ret dflt)) G with GOk a _ => R a | _ => True end).
    rewrite rung_bind. destruct (rung (recover e) G); auto.
  - intros a S Ha. rewrite rung_bind. destruct (rung (recovered_end name e) S); auto.
Qed.
Definition ncp (s : stmt) : Prop := reads_from_stdin s = false.
Lemma retv_bind2 A B (R : A -> Prop) (P : B -> Prop) (p : prog A) (k : A -> prog B) :
  rets (fun a _ => R a) p -> (forall a, R a -> rets (fun a _ => P a) (k a)) -> rets (fun a _ => P a) (bind p k).
Proof. intros H1 H2. eapply rets_bind2; [exact H1|]. intros a S Ha. now apply H2. Qed.
Section Copy.
Variable r : recs.
Context {K : recs_cp r}.
Lemma bottom_ncp : rets (fun a _ => ncp a) (parse_compound_query_bottom r).
Proof.
  unfold parse_compound_query_bottom. apply rets_bind. intros t. destruct (tok_eqb _ _); [|rets_go].
  apply rets_bind. intros lp.
  apply retv_bind2 with (R := fun a => match a with Some s => ncp s | None => True end).
  - apply rets_recovered; [exact I|]. apply retv_bind2 with (R := ncp); [apply k_ncp|]. intros a Ha. now apply rets_ret.
  - intros a Ha. apply rets_bind. intros _. apply rets_ret. intros _. destruct a; [exact Ha|reflexivity].
Qed.
Lemma compound_ncp : rets no_copy (parse_compound_query r).
Proof.
  change no_copy with (fun (a : stmt) (_ : gst) => ncp a).
  unfold parse_compound_query. apply retv_bind2 with (R := ncp); [apply bottom_ncp|]. intros a Ha.
  apply rets_bind. intros t. destruct (negb _); [now apply rets_ret|]. rets_go.
Qed.
Lemma copy_cp n : rets np (parse_copy_statement n).
Proof.
  unfold parse_copy_statement. do 7 (apply rets_bind; intros).
  eapply rets_bind2; [apply rets_consume_keyword|]. intros s S H. exact H.
Qed.
Lemma statement_cp : rets (fun s S => match s with Some s => copy_np s S | None => True end) (parse_statement r).
Proof.
  assert (P : forall A (f : A -> stmt) p, (forall a, ncp (f a)) -> rets (fun s S => match s with Some s => copy_np s S | None => True end) (pmap f p)).
  { intros A f p H. apply rets_bind. intros a. apply rets_ret. intros S. apply ncp_cp, H. }
  assert (P' : forall p, rets no_copy p -> rets (fun s S => match s with Some s => copy_np s S | None => True end) (pmap id p)).
  { intros p H. apply pmap_id. eapply rets_imp; [|exact H]. apply ncp_cp. }
  unfold parse_statement. apply rets_bind. intros t.
  repeat (match goal with |- rets _ (if ?x then _ else _) => destruct x end;
    [first [apply P', create_ncp|apply P', drop_ncp|apply P', compound_ncp|apply P', alter_ncp|apply P', do_ncp|apply P; reflexivity|idtac]|]);
    [| | |now apply rets_ret].
  - apply rets_bind. intros []; apply P; reflexivity.
  - apply rets_bind. intros []; [now apply rets_ret|apply P; reflexivity].
  - eapply rets_bind2; [apply copy_cp|]. intros c S H _. exact H.
Qed.
End Copy.

