(** The parser reads the heads of CREATE FUNCTION and CREATE TRIGGER of [DdlSpec.v]. *)
From Verif Require Export DdlTable.
Local Open Scope string_scope.
Local Open Scope list_scope.

(** How statements begin. *)
Notation stmt_words := [TLParen; W "SELECT"; W "DELETE"; W "UPDATE"; W "INSERT"; W "REPLACE"; W "SET"; W "SIGNAL"; W "RETURN"; W "DROP"; W "TRUNCATE"; W "RENAME";
  W "CREATE"; W "ALTER"; W "BEGIN"; W "END"; W "START"; W "COMMIT"; W "IF"; W "CASE"; W "DO"; W "WITH"].
(** What follows the characteristics of a function. *)
Notation body_words := [TEof; TSemiColon; TDoubleDollar; TRParen; W "ELSE"; W "ELSEIF"; W "WHEN"; TLParen; W "SELECT"; W "DELETE"; W "UPDATE"; W "INSERT"; W "REPLACE"; W "SET"; W "SIGNAL"; W "RETURN"; W "DROP"; W "TRUNCATE"; W "RENAME";
  W "CREATE"; W "ALTER"; W "BEGIN"; W "END"; W "START"; W "COMMIT"; W "IF"; W "CASE"; W "DO"; W "WITH"].
Notation char_words := [W "LANGUAGE"; W "NOT"; W "DETERMINISTIC"; W "CONTAINS"; W "NO"; W "READS"; W "MODIFIES"; W "COMMENT"; W "SQL"].
Section Rules.
Variable o : reading.
Notation parses := (parses o). Notation kw_tok := (kw_tok o). Notation name_tok := (name_tok o).
Ltac words H := (eapply pa_bind; [apply pb_token; discriminate|]); cbn [hd_tok fst]; kwt H.
Lemma pb_dtype_plain no_as ts x us n : dtype_is o no_as false ts x -> us <> [] -> type_end no_as (hd_tok us) = true -> length ts < n ->
  parses (parse_data_type (knot n) no_as) (ts ++ us) x us.
Proof. intros D U T L. apply dtype_parses in D as [_ D]. destruct us as [|y us]; [congruence|]. apply D; [exact L|exact T|discriminate]. Qed.
(** ** Parameters *)
Lemma pb_direction ts x t v s us : way_is o ts x -> name_tok t v -> parses parse_param_direction (ts ++ (t, s) :: us) x ((t, s) :: us).
Proof.
  intros [|t1 s1 K|t1 s1 K|t1 s1 K|t1 s1 t2 s2 K K2] N; norm.
  - eapply pa_bind; [apply pb_token; discriminate|]. cbn [hd_tok fst]. rewrite (name_not_kw o t v "IN" N eq_refl), (name_not_kw o t v "OUT" N eq_refl), (name_not_kw o t v "INOUT" N eq_refl). apply pa_ret.
  - words K. eapply pa_bind; [apply pb_kw; [exact K|discriminate]|]. eapply pa_bind; [apply pb_skip_no; [discriminate|now apply (name_not_kw o t v)]|]. apply pa_ret.
  - words K. eapply pa_bind; [apply pb_kw; [exact K|discriminate]|apply pa_ret].
  - words K. eapply pa_bind; [apply pb_kw; [exact K|discriminate]|apply pa_ret].
  - words K. eapply pa_bind; [apply pb_kw; [exact K|discriminate]|]. eapply pa_bind; [apply pb_skip; [exact K2|discriminate]|]. apply pa_ret.
Qed.
Lemma pb_param ts x us n : param_is o ts x -> us <> [] -> hd_tok us = TComma \/ hd_tok us = TRParen -> length ts < n -> parses (parse_function_param (knot n)) (ts ++ us) x us.
Proof.
  intros [b ds d t v s ts' ty D N T] U F L; norm.
  eapply pa_bind; [now apply (pb_direction _ d t v)|]. eapply pa_bind; [apply pb_name; [exact N|now apply (dtype_ne o false b ts' ty)]|].
  eapply pa_bind; [apply (pb_dtype o false b); [exact T|exact U|now destruct F as [-> | ->]|now destruct F as [-> | ->]|len]|apply pa_ret].
Qed.
(** ** Characteristics *)
Lemma characteristic_head ts x : characteristic_is o ts x -> heads char_words ts.
Proof.
  assert (G : forall v k s us, In (W k) char_words -> heads char_words ((TIdent v (KW k), s) :: us)).
  { intros v k s us I. split; [discriminate|]. exists (W k). split; [exact I|]. right. exists v, [], k. split; reflexivity. }
  intros [k c t s t' s' I (v & ->) K'|t s t' s' K K'|t s K|t s t' s' K K'|t s t' s' K K'|k c t s t1 s1 t2 s2 I K K1 K2|t s ts' x' K S|k c t s t1 s1 t2 s2 I K K1 K2];
    try (eapply heads_kw; [exact K|cbn; tauto]).
  - apply G. cbn; tauto.
  - eapply heads_kw; [exact K|]. cbn in I. destruct I as [E|[E|[]]]; injection E as <- <-; cbn; tauto.
Qed.
Lemma characteristics_head ts l us : many (characteristic_is o) ts l -> heads body_words us -> heads (char_words ++ body_words) (ts ++ us).
Proof.
  intros M H. apply heads_app; [eapply heads_sub; [exact H|intros y Y; apply in_or_app; now right]|].
  destruct M as [|ts1 a us1 l P M]; [now left|right]. apply heads_pre. eapply heads_sub; [now apply (characteristic_head _ a)|intros y Y; apply in_or_app; now left].
Qed.
Lemma pb_characteristic ts x us n : characteristic_is o ts x -> us <> [] -> string_token (hd_tok us) = None -> length ts < n -> parses (parse_characteristic n) (ts ++ us) (Some x) us.
Proof.
  intros [k c t s t' s' I (v & ->) (v' & ->)|t s t' s' K K'|t s K|t s t' s' K K'|t s t' s' K K'|k c t s t1 s1 t2 s2 I K K1 K2|t s ts' x' K S|k c t s t1 s1 t2 s2 I K K1 K2] U F L; norm;
    try words K.
  - eapply pa_bind; [apply pb_token; discriminate|]. cbn [hd_tok fst is_kw kw_eqb String.eqb Ascii.eqb Bool.eqb].
    eapply pa_bind; [apply pb_consume; [discriminate|np]|]. eapply pa_bind; [apply pb_token; discriminate|]. cbn [hd_tok fst].
    cbn in I. destruct I as [E|[E|[]]]; injection E as <- <-; cbn [is_kw kw_eqb String.eqb Ascii.eqb Bool.eqb]; (eapply pa_bind; [apply pb_consume; [exact U|np]|apply pa_ret]).
  - eapply pa_bind; [apply pb_kws2; [exact K|exact K'|exact U]|apply pa_ret].
  - eapply pa_bind; [apply pb_kw; [exact K|exact U]|apply pa_ret].
  - eapply pa_bind; [apply pb_kws2; [exact K|exact K'|exact U]|apply pa_ret].
  - eapply pa_bind; [apply pb_kws2; [exact K|exact K'|exact U]|apply pa_ret].
  - cbn in I. destruct I as [E|[E|[]]]; injection E as <- <-; kwt K; (eapply pa_bind; [apply pb_kws3; [exact K|exact K1|exact K2|exact U]|apply pa_ret]).
  - eapply pa_bind; [apply pb_kw; [exact K|ne]|]. eapply pa_bind; [apply pb_string; [exact S|exact U|exact F|len]|apply pa_ret].
  - eapply pa_bind; [apply pb_kws2; [exact K|exact K1|discriminate]|]. eapply pa_bind; [apply pb_token; discriminate|]. cbn [hd_tok fst].
    cbn in I. destruct I as [E|[E|[]]]; injection E as <- <-; kwt K2; (eapply pa_bind; [apply pb_kw; [exact K2|exact U]|apply pa_ret]).
Qed.
Lemma pb_characteristics ts l us n m : many (characteristic_is o) ts l -> heads body_words us -> length ts < n -> length ts < m ->
  parses (loop m (fun l : list function_characteristic =>
             c <- parse_characteristic n ;;
             match c with Some c => Ret (inl (l ++ [c])) | None => Ret (inr l) end) []) (ts ++ us) l us.
Proof.
  intros M H L Lm. set (body := fun l : list function_characteristic => _).
  assert (G : forall m acc, length ts < m -> parses (loop m body acc) (ts ++ us) (acc ++ l) us); [|now apply (G m [])]. clear Lm.
  pose proof (heads_ne _ _ H) as U.
  induction M as [|ts1 a us1 l P M IH]; intros m' acc Lm; (destruct m' as [|m']; [lia|]); cbn [loop app].
  - rewrite app_nil_r. eapply (pa_bind o _ _ _ _ _ (inr acc)); [|apply pa_ret]. eapply (pa_bind o _ _ _ _ _ None us); [|apply pa_ret].
    eapply pa_bind; [now apply pb_token|].
    assert (E : forall k, In (W k) char_words -> is_kw (hd_tok us) k = false).
    { intros k I. cbn [In W] in I. repeat (destruct I as [I|I]; [injection I as <-; hd_tac H|]). destruct I. }
    rewrite !E by (cbn; tauto). apply pa_ret.
  - norm. rewrite app_length in L, Lm. pose proof (characteristics_head us1 l us M H) as H1.
    assert (0 < length ts1). { destruct (characteristic_head _ _ P) as [N _]. destruct ts1; [congruence|cbn; lia]. }
    eapply (pa_bind o _ _ _ _ _ (inl (acc ++ [a])) (us1 ++ us)).
    + eapply (pa_bind o _ _ _ _ _ (Some a) (us1 ++ us)); [apply pb_characteristic; [exact P|ne|hd_tac H1|lia]|apply pa_ret].
    + cbn iota. match goal with |- context[acc ++ ?a :: l] => replace (acc ++ a :: l) with ((acc ++ [a]) ++ l) by now rewrite <- app_assoc end. apply IH; lia.
Qed.
(** ** The body in PostgreSQL *)
Lemma pb_dollar_body s1 ts s2 us n : Forall (fun x : tok * span => fst x <> TDoubleDollar /\ fst x <> TEof /\ placeholder o (fst x) = false) ts -> us <> [] -> length ts < n ->
  parses (skip_dollar_body n) ((TDoubleDollar, s1) :: ts ++ (TDoubleDollar, s2) :: us) tt us.
Proof.
  intros F U L. eapply pa_bind; [apply pb_tok; [ne|reflexivity]|]. revert n L.
  induction F as [|x ts (X1 & X2 & X3) F IH]; intros n L; (destruct n as [|n]; [cbn in L; lia|]); cbn [loop app].
  - eapply (pa_bind o _ _ _ _ _ (inr tt)); [|apply pa_ret]. eapply pa_bind; [apply pb_token; discriminate|]. cbn [hd_tok fst tok_eqb tok_tag Nat.eqb orb].
    eapply pa_bind; [apply pb_tok; [exact U|reflexivity]|apply pa_ret].
  - eapply (pa_bind o _ _ _ _ _ (inl tt) (ts ++ (TDoubleDollar, s2) :: us)).
    + eapply pa_bind; [apply pb_token; discriminate|]. cbn [hd_tok].
      replace (tok_eqb (fst x) TEof || tok_eqb (fst x) TDoubleDollar) with false.
      { destruct x as [t s]. eapply pa_bind; [apply pb_consume; [ne|np]|apply pa_ret]. }
      destruct (fst x); try congruence; reflexivity.
    + apply IH. cbn in L. lia.
Qed.
(** ** CREATE FUNCTION *)
Definition function_body (r : recs) : prog (option stmt) :=
  d <- dialect_ ;;
  if is_maria d then
                s <- r_stmt r ;;
                match s with
                | Some s => Ret (Some s)
                | None => expected_failure "statement"
                end
              else Ret None.
Lemma rd_function d pm hs f ds cs l us n x vs : function_is o hs f -> dollar_body_is o ds -> (o_dialect o = PostgreSQL \/ ds = []) -> many (characteristic_is o) cs l ->
  (ds = [] -> after_type (cs ++ us)) -> heads body_words us -> length (hs ++ ds ++ cs) < n -> reads o d pm (function_body (knot n)) us x vs ->
  reads o d pm (parse_create (knot n)) (hs ++ ds ++ cs ++ us) (SCreateFunction (f l x)) vs.
Proof.
  intros [hd s l' t s1 is i t1 v s2 p1 ps p p2 t2 s3 ts ty C K I N Pm K2 T] Ds Dl M Af H L B. norm. pose proof (heads_ne _ _ H) as U.
  apply (rd_create o d pm hd s l'); [exact C|eapply heads_kw; [exact K|cbn; tauto]|len|].
  pose proof (characteristics_head cs l us M H) as H1.
  eapply rd_bind; [apply rd_token|]. cbn [fst]. kwt K. eapply rd_bind; [apply rd_parses, pb_kw; [exact K|ne]|].
  eapply rd_bind; [apply rd_parses, pb_if_not_exists; [exact I|discriminate|now apply (name_not_kw o t1 v)]|].
  eapply rd_bind; [apply rd_parses, pb_name; [exact N|discriminate]|]. eapply rd_bind; [apply rd_parses, pb_tok; [ne|reflexivity]|].
  eapply rd_bind; [apply rd_parses, (pb_sep_rec o _ (param_is o) _ _ ps p n); [exact Pm| |discriminate|len|rewrite r_n_knot; len]|].
  { intros. now apply pb_param. }
  eapply rd_bind; [apply rd_parses, pb_tok; [discriminate|reflexivity]|]. eapply rd_bind; [apply rd_parses, pb_kw; [exact K2|ne]|].
  eapply rd_bind; [apply rd_parses, pb_dtype_plain; [exact T|ne| |len]|].
  { destruct Ds as [|ta sa sa1 ts' sa2 (va & -> & _)]; [cbn [app]|reflexivity]. destruct (Af eq_refl) as (A1 & A2 & A3 & A4). clear - A1 A2 A3 A4 H1.
    destruct H1 as (_ & q & I & E). cbn [In app W] in I.
    repeat match type of I with _ \/ _ => destruct I as [<-|I] end; try (destruct I; fail);
    (destruct E as [E|(v1 & v' & k & E' & E)]; [rewrite E in *|first [discriminate E'|injection E' as <- <-; rewrite E in *]]); first [reflexivity|congruence|discriminate]. }
  eapply rd_bind; [apply rd_parses, pa_dialect|].
  eapply (rd_bind o d pm _ _ _ _ _ tt (cs ++ us)).
  { apply rd_parses. destruct Ds as [|ta sa sa1 ts' sa2 Ka F]; norm.
    - destruct (is_postgresql (o_dialect o)); [|apply pa_ret]. eapply pa_bind; [apply pb_skip_no; [ne|hd_tac H1]|]. apply pa_ret.
    - destruct Dl as [-> |Dl]; [|discriminate]. cbn [is_postgresql]. eapply pa_bind; [apply pb_skip; [exact Ka|discriminate]|]. cbn iota.
      apply pb_dollar_body; [exact F|ne|rewrite r_n_knot; len]. }
  eapply rd_bind; [apply rd_parses, pb_characteristics; [exact M|exact H|rewrite r_n_knot; len|rewrite r_n_knot; len]|].
  eapply rd_bind; [|apply rd_ret].
  intros st A O De P. destruct (B st A O De P) as (st' & R & Q). exists st'. split; [|exact Q]. rewrite <- R. unfold function_body.
  unfold dialect_. rewrite run_bind, run_perf. cbn [exec]. now rewrite O.
Qed.
(** ** CREATE TRIGGER *)
Lemma rd_trigger d pm hs f us n x vs : trigger_is o hs f -> us <> [] -> length hs < n -> reads o d true (r_stmt (knot n)) us (Some x) vs ->
  reads o d pm (parse_create (knot n)) (hs ++ us) (SCreateTrigger (f x)) vs.
Proof.
  intros [hd s l t s1 is i t1 v s2 kt ct t2 s3 ke ce t3 s4 t4 s5 t5 v5 s6 t6 s7 t7 s8 t8 s9 C K I N It Kt Ie Ke K4 N5 K6 K7 K8] U L B. norm.
  apply (rd_create o d pm hd s l); [exact C|eapply heads_kw; [exact K|cbn; tauto]|len|].
  eapply rd_bind; [apply rd_token|]. cbn [fst]. kwt K. eapply rd_bind; [apply rd_parses, pb_kw; [exact K|ne]|].
  eapply rd_bind; [apply rd_parses, pb_if_not_exists; [exact I|discriminate|now apply (name_not_kw o t1 v)]|].
  eapply rd_bind; [apply rd_parses, pb_name; [exact N|discriminate]|].
  apply rd_assoc. eapply (rd_bind o d pm _ _ _ _ _ (mkTag ct s3)).
  { apply rd_parses. eapply pa_bind; [apply pb_token; discriminate|]. cbn [hd_tok fst].
    cbn in It. destruct It as [E|[E|[]]]; injection E as <- <-; kwt Kt; (eapply pa_bind; [apply pb_kw; [exact Kt|discriminate]|apply pa_ret]). }
  apply rd_assoc. eapply (rd_bind o d pm _ _ _ _ _ (mkTag ce s4)).
  { apply rd_parses. eapply pa_bind; [apply pb_token; discriminate|]. cbn [hd_tok fst].
    cbn in Ie. destruct Ie as [E|[E|[E|[]]]]; injection E as <- <-; kwt Ke; (eapply pa_bind; [apply pb_kw; [exact Ke|discriminate]|apply pa_ret]). }
  eapply rd_bind; [apply rd_parses, pb_kw; [exact K4|discriminate]|]. eapply rd_bind; [apply rd_parses, pb_name; [exact N5|discriminate]|].
  eapply rd_bind; [apply rd_parses, pb_kws3; [exact K6|exact K7|exact K8|exact U]|].
  eapply rd_with_permit; [eapply rd_bind; [exact B|apply rd_ret]|apply rd_ret].
Qed.
Lemma function_head hs f us : function_is o hs f -> heads [W "CREATE"] (hs ++ us).
Proof. intros [hd s l t s1 is i t1 v s2 p1 ps p p2 t2 s3 ts ty [tc sc os lo K _]]. norm. eapply heads_kw; [exact K|now left]. Qed.
Lemma trigger_head hs f us : trigger_is o hs f -> heads [W "CREATE"] (hs ++ us).
Proof. intros [hd s l t s1 is i t1 v s2 kt ct t2 s3 ke ce t3 s4 t4 s5 t5 v5 s6 t6 s7 t7 s8 t8 s9 [tc sc os lo K _]]. norm. eapply heads_kw; [exact K|now left]. Qed.
End Rules.
