(** Rules for reading known tokens: the token that comes next, words, names, strings, lists. *)
From Verif Require Export GrammarSpec.
Local Open Scope string_scope.
Local Open Scope list_scope.

(** ** The token that comes next *)
(** The tokens [us] begin with a token like one of [ps]; keywords may be spelled in any way. *)
Definition heads (ps : list tok) (us : tks) : Prop :=
  us <> [] /\ exists p, In p ps /\ (hd_tok us = p \/ exists v v' k, p = TIdent v' (KW k) /\ hd_tok us = TIdent v (KW k)).
Definition W (k : string) : tok := TIdent [] (KW k).
Definition ends : list tok := [TEof; TSemiColon; TDoubleDollar; TRParen; W "END"; W "ELSE"; W "ELSEIF"; W "WHEN"].
Lemma heads_sub ps qs us : heads ps us -> incl ps qs -> heads qs us.
Proof. intros (N & p & I & H) S. split; [exact N|]. exists p. auto. Qed.
Lemma heads_app ps ts us : heads ps us -> ts = [] \/ heads ps ts -> heads ps (ts ++ us).
Proof.
  intros H [-> |(N & p & I & E)]; [exact H|]. split; [destruct ts; [congruence|discriminate]|]. exists p. split; [exact I|].
  destruct ts; [congruence|exact E].
Qed.
Lemma heads_kw o k t s us ps : kw_tok o k t -> In (W k) ps -> heads ps ((t, s) :: us).
Proof. intros (v & -> & _) I. split; [discriminate|]. exists (W k). split; [exact I|]. right. exists v, [], k. auto. Qed.
Lemma heads_tok t s us ps : In t ps -> heads ps ((t, s) :: us).
Proof. intros I. split; [discriminate|]. exists t. auto. Qed.
Lemma heads_ne ps us : heads ps us -> us <> [].
Proof. now intros [H _]. Qed.
(** A closed property of the next token, from what it can be. *)
Ltac hd_tac H := (* H : heads ps us *)
  let I := fresh "I" in let E := fresh "E" in
  destruct H as (_ & ?p & I & E); cbn [In app ends W] in I;
  repeat match type of I with _ \/ _ => destruct I as [<-|I] end; try (destruct I; fail);
  (destruct E as [E|(?v & ?v' & ?k & E' & E)]; [rewrite E; reflexivity|first [discriminate E'|injection E' as <- <-; rewrite E; reflexivity]]).
Lemma heads_pre ps ts us : heads ps ts -> heads ps (ts ++ us).
Proof. intros (N & p & I & E). split; [destruct ts; [congruence|discriminate]|]. exists p. split; [exact I|]. now destruct ts. Qed.
Lemma ne_app (ts us : tks) : us <> [] -> ts ++ us <> [].
Proof. intros H. destruct ts; [exact H|discriminate]. Qed.
Lemma ne_cons (x : tok * span) us : x :: us <> [].
Proof. discriminate. Qed.


Lemma operator_np (w : options) b t x : operator_of b t = Some x -> placeholder w t = false.
Proof. destruct t; intros H; try reflexivity; now destruct b. Qed.
(** This token is not an argument. *)
Ltac np := solve [reflexivity | assumption | match goal with
  | K : View.kw_tok _ _ ?t |- placeholder _ (fst (?t, _)) = false => destruct K as (? & -> & _); reflexivity
  | K : any_case _ ?t |- placeholder _ (fst (?t, _)) = false => destruct K as (? & ->); reflexivity
  | K : operator_of _ ?t = Some _ |- placeholder _ (fst (?t, _)) = false => exact (operator_np _ _ _ _ K)
  | K : literal ?t _ |- placeholder _ (fst (?t, _)) = false => destruct K; reflexivity
  end].
Section Rules.
Variable o : reading.
Notation parses := (parses o). Notation kw_tok := (kw_tok o). Notation name_tok := (name_tok o).
Lemma pa_assoc A B C (p : prog A) (f : A -> prog B) (k : B -> prog C) ts c us :
  parses (x <- (y <- p ;; f y) ;; k x) ts c us -> parses (y <- p ;; x <- f y ;; k x) ts c us.
Proof.
  intros H st A0 O0. destruct (H st A0 O0) as (st' & E & Q). exists st'. split; [|exact Q].
  rewrite <- E. rewrite !run_bind. destruct (run p st) as [a st1| | |]; try reflexivity. now rewrite run_bind.
Qed.
(** ** Rules for tokens *)
Lemma pb_token us : us <> [] -> parses token us (hd_tok us) us.
Proof. destruct us; [congruence|]. intros _. apply pa_token. Qed.
Lemma pb_kw k t s us : kw_tok k t -> us <> [] -> parses (consume_keyword k) ((t, s) :: us) s us.
Proof. intros K N. destruct us; [congruence|]. now apply pa_consume_keyword. Qed.
Lemma pb_skip k t s us : kw_tok k t -> us <> [] -> parses (skip_keyword k) ((t, s) :: us) (Some s) us.
Proof. intros K N. destruct us; [congruence|]. now apply pa_skip_keyword. Qed.
Lemma pb_skip_no k us : us <> [] -> is_kw (hd_tok us) k = false -> parses (skip_keyword k) us None us.
Proof. intros N K. destruct us; [congruence|]. now apply pa_skip_keyword_no. Qed.
Lemma pb_tok t s us : us <> [] -> punct o t = true -> parses (consume_token t) ((t, s) :: us) s us.
Proof. intros N K. destruct us; [congruence|]. now apply pa_consume_token. Qed.
Lemma pb_skip_tok t s us : us <> [] -> punct o t = true -> parses (skip_token t) ((t, s) :: us) (Some s) us.
Proof. intros N K. destruct us; [congruence|]. now apply pa_skip_token. Qed.
Lemma pb_skip_tok_no t us : us <> [] -> tok_eqb (hd_tok us) t = false -> parses (skip_token t) us None us.
Proof. intros N K. destruct us; [congruence|]. now apply pa_skip_token_no. Qed.
Lemma pb_consume x us : us <> [] -> placeholder o (fst x) = false -> parses consume (x :: us) (snd x) us.
Proof. intros N P. destruct us; [congruence|]. now apply pa_consume. Qed.
Lemma pb_name t v s us : name_tok t v -> us <> [] -> parses consume_plain_identifier ((t, s) :: us) (mkIdent v s) us.
Proof. intros N U. destruct us; [congruence|]. now apply pa_name. Qed.
(** A word that may be missing. *)
Lemma pb_opt k ts x us : opt_word o k ts x -> us <> [] -> is_kw (hd_tok us) k = false -> parses (skip_keyword k) (ts ++ us) x us.
Proof. intros [|t s K] N F; cbn [app]; [now apply pb_skip_no|now apply pb_skip]. Qed.
Lemma pb_ident ts i us : ident_is o ts i -> us <> [] -> parses consume_plain_identifier (ts ++ us) i us.
Proof. intros [t v s N] U. now apply pb_name. Qed.
(** ** Lists and recovery *)
Lemma pa_recovered A (a d : A) e ex p ts x us : parses p ts a (x :: us) -> e (fst x) = true ->
  parses (recovered d ex e p) ts a (x :: us).
Proof.
  intros H E. eapply pa_bind; [eapply pa_try; [exact H|apply pa_ret]|]. eapply pa_bind; [|apply pa_ret].
  eapply pa_bind; [apply pa_token|]. rewrite E. apply pa_ret.
Qed.
Definition sep_body {A} (p : prog A) := fun l : list A =>
            a <- p ;;
            c <- skip_token TComma ;;
            match c with Some _ => Ret (inl (l ++ [a])) | None => Ret (inr (l ++ [a])) end.
Lemma sep_one A (p : prog A) ts a y rest m acc : parses p (ts ++ y :: rest) a (y :: rest) -> tok_eqb (fst y) TComma = false -> 0 < m ->
  parses (loop m (sep_body p) acc) (ts ++ y :: rest) (acc ++ [a]) (y :: rest).
Proof.
  intros H C L. destruct m as [|m]; [lia|]. cbn [loop].
  eapply pa_bind; [eapply pa_bind; [exact H|]; eapply pa_bind; [now apply pa_skip_token_no|apply pa_ret]|apply pa_ret].
Qed.
Lemma sep_more A (p : prog A) ts a s x us l m acc vs : parses p (ts ++ (TComma, s) :: x :: us) a ((TComma, s) :: x :: us) ->
  parses (loop m (sep_body p) (acc ++ [a])) (x :: us) (acc ++ a :: l) vs ->
  parses (loop (S m) (sep_body p) acc) (ts ++ (TComma, s) :: x :: us) (acc ++ a :: l) vs.
Proof.
  intros H1 H2. cbn [loop]. eapply pa_bind; [eapply pa_bind; [exact H1|]; eapply pa_bind; [now apply pa_skip_token|apply pa_ret]|exact H2].
Qed.
Lemma commas_len A (P : tks -> A -> Prop) ts l : commas P ts l -> length l <= S (length ts).
Proof. induction 1; cbn [length]; rewrite ?app_length; cbn [length]; lia. Qed.
Lemma commas_impl A (P Q : tks -> A -> Prop) ts l : (forall ts a, P ts a -> Q ts a) -> commas P ts l -> commas Q ts l.
Proof. intros I. induction 1; constructor; auto. Qed.
Lemma pb_loop A (P : tks -> A -> Prop) (p : prog A) (Q : tok -> bool) ts l n : commas P ts l -> Q TComma = true ->
  (forall ts a us, P ts a -> us <> [] -> Q (hd_tok us) = true -> length ts < n -> parses p (ts ++ us) a us) ->
  forall m acc us, us <> [] -> Q (hd_tok us) = true -> tok_eqb (hd_tok us) TComma = false -> length ts < n -> length ts < m ->
  parses (loop m (sep_body p) acc) (ts ++ us) (acc ++ l) us.
Proof.
  intros C Qc H. induction C as [ts a X|ts a s ts' l X C IH]; intros m acc us N Qu Cu Ln Lm; (destruct m as [|m]; [lia|]).
  - destruct us as [|y us]; [congruence|]. apply sep_one; [now apply H|exact Cu|lia].
  - rewrite app_length in Ln, Lm. cbn [length] in Ln, Lm. rewrite <- app_assoc. cbn [app].
    destruct (ts' ++ us) as [|z zs] eqn:Z; [now destruct ts'|]. apply sep_more; [apply H; auto; [discriminate|lia]|]. rewrite <- Z.
    replace (acc ++ a :: l) with ((acc ++ [a]) ++ l) by now rewrite <- app_assoc. apply IH; auto; lia.
Qed.
Lemma pb_sep A (P : tks -> A -> Prop) (p : prog A) (Q : tok -> bool) ts l n m us : commas P ts l -> Q TComma = true ->
  (forall ts a us, P ts a -> us <> [] -> Q (hd_tok us) = true -> length ts < n -> parses p (ts ++ us) a us) ->
  us <> [] -> Q (hd_tok us) = true -> tok_eqb (hd_tok us) TComma = false -> length ts < n -> length ts < m ->
  parses (sep_list m p) (ts ++ us) l us.
Proof. intros C Qc H N Qu Cu L1 L2. apply (pb_loop A P p Q ts l n C Qc H m []); auto. Qed.
(** The same in parentheses. *)
Lemma pb_sep_rec A (P : tks -> A -> Prop) (p : prog A) ex ts l n m s us : commas P ts l ->
  (forall ts a us, P ts a -> us <> [] -> hd_tok us = TComma \/ hd_tok us = TRParen -> length ts < n -> parses p (ts ++ us) a us) ->
  us <> [] -> length ts < n -> length ts < m ->
  parses (sep_list_recovered m ex p) (ts ++ (TRParen, s) :: us) l ((TRParen, s) :: us).
Proof.
  intros C H N L1 L2. unfold sep_list_recovered, recovered_acc.
  eapply (pa_bind o _ _ _ _ _ (l, true) ((TRParen, s) :: us)).
  2:{ cbn iota. eapply pa_bind; [apply pa_ret|]. eapply pa_bind; [|apply pa_ret]. eapply pa_bind; [apply pa_token|]. cbn [fst tok_eqb tok_tag Nat.eqb]. apply pa_ret. }
  set (body := fun l : list A => _). assert (G : forall acc, parses (loop_acc m body acc) (ts ++ (TRParen, s) :: us) (acc ++ l, true) ((TRParen, s) :: us)); [|apply (G [])].
  revert m L1 L2.
  induction C as [ts a X|ts a s' ts' l X C IH]; intros m L1 L2 acc; (destruct m as [|m]; [lia|]); cbn [loop_acc].
  - eapply (pa_try o _ _ _ _ _ (acc ++ [a], Break)); [|apply pa_ret]. eapply pa_bind; [apply H; [exact X|discriminate|now right|exact L1]|].
    eapply pa_bind; [now apply pa_skip_token_no|apply pa_ret].
  - rewrite app_length in L1, L2. cbn [length] in L1, L2. rewrite <- app_assoc. cbn [app].
    eapply (pa_try o _ _ _ _ _ (acc ++ [a], Continue)).
    + eapply pa_bind; [apply H; [exact X|discriminate|now left|lia]|]. eapply pa_bind; [apply pb_skip_tok; [apply ne_app; discriminate|reflexivity]|apply pa_ret].
    + cbn iota. replace (acc ++ a :: l) with ((acc ++ [a]) ++ l) by now rewrite <- app_assoc. apply IH; lia.
Qed.
(** ** Words *)
Lemma pb_kws2 k1 k2 t1 s1 t2 s2 us : kw_tok k1 t1 -> kw_tok k2 t2 -> us <> [] ->
  parses (consume_keywords [k1; k2]) ((t1, s1) :: (t2, s2) :: us) (join s2 s1) us.
Proof.
  intros K1 K2 N. eapply pa_bind; [apply pb_kw; [exact K1|discriminate]|]. eapply pa_bind; [apply pb_kw; [exact K2|exact N]|apply pa_ret].
Qed.
Lemma pb_kws3 k1 k2 k3 t1 s1 t2 s2 t3 s3 us : kw_tok k1 t1 -> kw_tok k2 t2 -> kw_tok k3 t3 -> us <> [] ->
  parses (consume_keywords [k1; k2; k3]) ((t1, s1) :: (t2, s2) :: (t3, s3) :: us) (join s3 (join s2 s1)) us.
Proof.
  intros K1 K2 K3 N. eapply pa_bind; [apply pb_kw; [exact K1|discriminate]|]. eapply pa_bind; [apply pb_kw; [exact K2|discriminate]|].
  eapply pa_bind; [apply pb_kw; [exact K3|exact N]|apply pa_ret].
Qed.
Lemma pb_kws4 k1 k2 k3 k4 t1 s1 t2 s2 t3 s3 t4 s4 us : kw_tok k1 t1 -> kw_tok k2 t2 -> kw_tok k3 t3 -> kw_tok k4 t4 -> us <> [] ->
  parses (consume_keywords [k1; k2; k3; k4]) ((t1, s1) :: (t2, s2) :: (t3, s3) :: (t4, s4) :: us) (join s4 (join s3 (join s2 s1))) us.
Proof.
  intros K1 K2 K3 K4 N. eapply pa_bind; [apply pb_kw; [exact K1|discriminate]|]. eapply pa_bind; [apply pb_kw; [exact K2|discriminate]|].
  eapply pa_bind; [apply pb_kw; [exact K3|discriminate]|]. eapply pa_bind; [apply pb_kw; [exact K4|exact N]|apply pa_ret].
Qed.
Lemma any_is k t : any_case k t -> is_kw t k = true.
Proof. intros (v & ->). apply kw_eqb_refl. Qed.
Lemma kw_any k t : kw_tok k t -> any_case k t.
Proof. intros (v & -> & _). now exists v. Qed.
(** The rows of a table. *)
Definition has_key {A} (k : string) (tbl : list (string * A)) : bool := existsb (fun x => String.eqb k (fst x)) tbl.
Fixpoint nodup_keys {A} (l : list (string * A)) : bool := match l with [] => true | x :: r => negb (has_key (fst x) r) && nodup_keys r end.
Lemma kw_assoc_in {A} (l : list (string * A)) v k c : nodup_keys l = true -> In (k, c) l -> kw_assoc l (TIdent v (KW k)) = Some (k, c).
Proof.
  induction l as [|[x d] l IH]; [intros _ []|]. cbn [nodup_keys fst kw_assoc is_kw kw_eqb]. intros N I. apply andb_prop in N as [N1 N2].
  destruct I as [E|I].
  - injection E as -> ->. now rewrite String.eqb_refl.
  - destruct (String.eqb_spec k x) as [->|]; [|now apply IH]. apply negb_true_iff in N1. unfold has_key in N1.
    assert (X : existsb (fun y : string * A => String.eqb x (fst y)) l = true) by (apply existsb_exists; exists (x, c); split; [exact I|apply String.eqb_refl]).
    congruence.
Qed.
Lemma has_key_assoc {A} (l : list (string * A)) v k : has_key k l = false -> kw_assoc l (TIdent v (KW k)) = None.
Proof.
  induction l as [|[x d] l IH]; [reflexivity|]. cbn [has_key existsb fst kw_assoc is_kw kw_eqb]. destruct (String.eqb k x); [discriminate|exact IH].
Qed.
Lemma not_kw_assoc {A} (l : list (string * A)) t : existsb (is_kw t) (map fst l) = false -> kw_assoc l t = None.
Proof. induction l as [|[x d] l IH]; [reflexivity|]. cbn [map existsb fst kw_assoc]. destruct (is_kw t x); [discriminate|exact IH]. Qed.

(** ** Strings and numbers *)
Lemma literal_token t v : literal t v -> string_token t = Some v.
Proof. now intros []. Qed.
Lemma pb_string ts x us n : string_is ts x -> us <> [] -> string_token (hd_tok us) = None -> length ts <= n -> parses (consume_string n) (ts ++ us) x us.
Proof.
  intros [t v s ts' x' L M] N F Ln. cbn [app length] in *. unfold consume_string. eapply pa_bind; [apply pa_token|]. cbn [fst]. rewrite (literal_token _ _ L).
  eapply pa_bind; [apply pb_consume; [apply ne_app, N|np]|]. cbn [snd]. clear L t.
  assert (G : forall m, length ts' < m -> parses (loop m (fun ab : text * span =>
                t <- token ;;
                match string_token t with
                | Some v => s <- consume ;; Ret (inl (fst ab ++ v, join (snd ab) s))
                | None => Ret (inr (mkSString (fst ab) (snd ab)))
                end) (v, s)) (ts' ++ us) x' us).
  2:{ apply G. lia. }
  clear n Ln. induction M as [v s|v s t w s' ts0 x0 L M IH]; intros m Lm; (destruct m as [|m]; [lia|]); cbn [loop app length] in *.
  - eapply (pa_bind o _ _ _ _ _ (inr (mkSString v s)) us); [|apply pa_ret]. eapply pa_bind; [apply pb_token, N|]. rewrite F. apply pa_ret.
  - eapply (pa_bind o _ _ _ _ _ (inl (v ++ w, join s s')) (ts0 ++ us)); [|apply (IH m ltac:(lia))]. eapply pa_bind; [apply pa_token|]. cbn [fst]. rewrite (literal_token _ _ L).
    eapply pa_bind; [apply pb_consume; [apply ne_app, N|np]|apply pa_ret].
Qed.
Lemma string_len ts x : string_is ts x -> 0 < length ts.
Proof. intros []. cbn. lia. Qed.
Lemma string_hd ts x : string_is ts x -> exists v, hd_tok ts = TSingleQuotedString v \/ hd_tok ts = TDoubleQuotedString v.
Proof. intros [? ? ? ? ? [v|v] _]; exists v; auto. Qed.
Lemma pb_int mx v s us : (digits_value v <= mx)%N -> us <> [] -> parses (consume_int mx) ((TInteger v, s) :: us) (digits_value v, s) us.
Proof.
  intros L N. eapply pa_bind; [apply pa_token|]. cbn [fst]. apply N.leb_le in L. rewrite L. eapply pa_bind; [apply pa_ret|].
  eapply pa_bind; [apply pb_consume; [assumption|np]|apply pa_ret].
Qed.
(** The tables of the model have the rows of the specification. *)
Definition rows_in (l : list (string * list string)) (tbl : list (string * string)) : bool :=
  forallb (fun x => forallb (fun w => existsb (fun y => String.eqb w (fst y) && String.eqb (fst x) (snd y)) tbl) (snd x)) l.
Definition keys_in (l : list (string * list string)) (tbl : list (string * string)) : bool := forallb (fun y => is_listed l (fst y)) tbl.
Lemma rows_row l tbl w c : rows_in l tbl = true -> stands_for l w c -> In (w, c) tbl.
Proof.
  intros R (ws & I & J). unfold rows_in in R. rewrite forallb_forall in R. specialize (R _ I). cbn [fst snd] in R.
  rewrite forallb_forall in R. specialize (R _ J). apply existsb_exists in R as ([k d] & K & E). cbn [fst snd] in E.
  apply andb_prop in E as [E1 E2]. apply String.eqb_eq in E1, E2. now subst.
Qed.
Lemma keys_key l tbl w : keys_in l tbl = true -> is_listed l w = false -> has_key w tbl = false.
Proof.
  intros R N. destruct (has_key w tbl) eqn:H; [|reflexivity]. unfold has_key in H. apply existsb_exists in H as ([k d] & K & E). cbn [fst] in E.
  apply String.eqb_eq in E as ->. unfold keys_in in R. rewrite forallb_forall in R. specialize (R _ K). cbn [fst] in R. congruence.
Qed.
Lemma unit_row k u : stands_for units_by_name k u -> In (k, u) time_unit_table.
Proof. apply rows_row. vm_compute. reflexivity. Qed.
Lemma func_row k u : stands_for functions_by_name k u -> In (k, u) function_table.
Proof. apply rows_row. vm_compute. reflexivity. Qed.
Lemma bare_row k u : stands_for functions_without_parentheses k u -> In (k, u) bare_functions.
Proof. apply rows_row. vm_compute. reflexivity. Qed.
Lemma func_key k : is_listed functions_by_name k = false -> has_key k function_table = false.
Proof. apply keys_key. vm_compute. reflexivity. Qed.
Lemma bare_key k : is_listed functions_without_parentheses k = false -> has_key k bare_functions = false.
Proof. apply keys_key. vm_compute. reflexivity. Qed.
Lemma pb_unit t u s us : unit_tok t u -> us <> [] -> parses consume_time_unit ((t, s) :: us) (u, s) us.
Proof.
  intros (k & I & v & ->) N. eapply pa_bind; [apply pa_token|]. cbn [fst]. unfold parse_time_unit.
  apply unit_row in I. rewrite (kw_assoc_in time_unit_table v k u) by (auto; vm_compute; reflexivity). cbn [option_map snd].
  eapply pa_bind; [apply pb_consume; [assumption|np]|apply pa_ret].
Qed.
Lemma unit_ident t u : unit_tok t u -> exists v k, t = TIdent v (KW k).
Proof. intros (k & I & v & ->). eauto. Qed.
Lemma number_i64 t n : number_text t n -> parse_i64 t = Some n /\ forallb (fun c => negb (is_interval_sep c)) t = true.
Proof.
  intros (ds & E & N & D & -> & L).
  assert (S : forall c, is_digit c = true -> is_interval_sep c = false /\ (c =? 43)%N = false).
  { intros c H. unfold is_digit in H. unfold is_interval_sep. apply andb_prop in H as [H1 H2]. apply N.leb_le in H1, H2.
    repeat match goal with |- context [(c =? ?k)%N] => replace (c =? k)%N with false by (symmetry; apply N.eqb_neq; lia) end. now split. }
  assert (V : (digits_value ds <=? i64_max)%N = true) by (apply N.leb_le; unfold i64_max; lia).
  assert (Z : forallb (fun c => negb (is_interval_sep c)) ds = true).
  { apply forallb_forall. intros c I. rewrite forallb_forall in D. now rewrite (proj1 (S c (D c I))). }
  destruct E as [-> | ->].
  - split; [|exact Z]. unfold parse_i64. destruct ds as [|c ds]; [congruence|]. assert (X := D). cbn [forallb] in X. apply andb_prop in X as [X _].
    rewrite (proj2 (S c X)), D, V. reflexivity.
  - split; [|cbn [forallb]; now rewrite Z]. unfold parse_i64. cbn [N.eqb Pos.eqb]. destruct ds as [|c ds]; [congruence|]. rewrite D, V. reflexivity.
Qed.
Lemma split_sep p t c r : forallb (fun c => negb (p c)) t = true -> p c = true -> split_on p (t ++ c :: r) = t :: split_on p r.
Proof.
  intros H C. induction t as [|a t IH]; cbn [app split_on forallb] in *.
  - now rewrite C.
  - apply andb_prop in H as [H1 H2]. apply negb_true_iff in H1. rewrite H1, IH by exact H2. reflexivity.
Qed.
Lemma split_none p t : forallb (fun c => negb (p c)) t = true -> split_on p t = [t].
Proof.
  intros H. induction t as [|a t IH]; cbn [split_on forallb] in *; [reflexivity|].
  apply andb_prop in H as [H1 H2]. apply negb_true_iff in H1. rewrite H1, IH by exact H2. reflexivity.
Qed.
Lemma pb_parts t l s us : numbers_text t l -> parses (interval_parts s (split_on is_interval_sep t)) us l us.
Proof.
  induction 1 as [t n H|t n c r l H C X IH].
  - apply number_i64 in H as [H1 H2]. rewrite (split_none _ _ H2). cbn [interval_parts]. rewrite H1. eapply pa_bind; [apply pa_ret|apply pa_ret].
  - apply number_i64 in H as [H1 H2]. rewrite (split_sep _ _ _ _ H2) by (cbn in C; intuition (subst; reflexivity)).
    cbn [interval_parts]. rewrite H1. eapply pa_bind; [exact IH|apply pa_ret].
Qed.

(** ** Types *)
Lemma pb_width ts w us : width_is ts w -> us <> [] -> parses parse_width (ts ++ us) (Some w) us.
Proof.
  intros [s1 v s s2 L] N. cbn [app]. unfold parse_width. eapply pa_bind; [apply pa_token|]. cbn [fst tok_eqb tok_tag Nat.eqb negb].
  eapply pa_bind; [apply pb_tok; [discriminate|reflexivity]|].
  eapply pa_bind; [eapply pa_recovered; [apply pb_int; [exact L|discriminate]|reflexivity]|].
  eapply pa_bind; [apply pb_tok; [exact N|reflexivity]|apply pa_ret].
Qed.
Lemma pb_no_width us : us <> [] -> tok_eqb (hd_tok us) TLParen = false -> parses parse_width us None us.
Proof. intros N F. eapply pa_bind; [apply pb_token, N|]. rewrite F. apply pa_ret. Qed.
Lemma pb_opt_width ts w us : opt_width ts w -> us <> [] -> tok_eqb (hd_tok us) TLParen = false -> parses parse_width (ts ++ us) w us.
Proof. intros [|ts' w' H] N F; [now apply pb_no_width|now apply pb_width]. Qed.
Lemma pb_width_req ts w us : width_is ts w -> us <> [] -> parses parse_width_req (ts ++ us) w us.
Proof.
  intros H N. pose proof (pb_width _ _ _ H N) as X. destruct H as [s1 v s s2 L]. cbn [app] in *.
  eapply pa_bind; [apply pa_token|]. cbn [fst tok_eqb tok_tag Nat.eqb negb]. eapply pa_bind; [exact X|apply pa_ret].
Qed.
Lemma pb_enum ts l s1 s2 us n : commas string_is ts l -> us <> [] -> length ts < n ->
  parses (parse_enum_set_values n) ((TLParen, s1) :: ts ++ (TRParen, s2) :: us) l us.
Proof.
  intros C N L. unfold parse_enum_set_values. eapply pa_bind; [apply pb_tok; [apply ne_app; discriminate|reflexivity]|].
  eapply (pa_bind o _ _ _ _ _ l ((TRParen, s2) :: us)); [|eapply pa_bind; [apply pb_tok; [exact N|reflexivity]|apply pa_ret]].
  unfold recovered_acc. eapply (pa_bind o _ _ _ _ _ (l, true) ((TRParen, s2) :: us)).
  2:{ cbn iota. eapply pa_bind; [apply pa_ret|]. eapply pa_bind; [|apply pa_ret]. eapply pa_bind; [apply pa_token|]. cbn [fst tok_eqb tok_tag Nat.eqb is_rparen]. apply pa_ret. }
  set (body := fun l : list sstring => _). set (m := n) in |- * at 1.
  assert (G : forall acc m, length ts < m -> parses (loop_acc m body acc) (ts ++ (TRParen, s2) :: us) (acc ++ l, true) ((TRParen, s2) :: us)); [|apply (G [] n L)].
  clear m. induction C as [ts a X|ts a s' ts' l X C IH]; intros acc m Lm; (destruct m as [|m]; [lia|]); cbn [loop_acc].
  - eapply (pa_try o _ _ _ _ _ (acc ++ [a], Break)); [|apply pa_ret]. eapply pa_bind; [apply pb_string; [exact X|discriminate|reflexivity|lia]|].
    eapply pa_bind; [apply pa_token|]. cbn [fst tok_eqb tok_tag Nat.eqb]. apply pa_ret.
  - rewrite app_length in L, Lm. cbn [length] in L, Lm. rewrite <- app_assoc. cbn [app].
    eapply (pa_try o _ _ _ _ _ (acc ++ [a], Continue)).
    + eapply pa_bind; [apply pb_string; [exact X|discriminate|reflexivity|lia]|].
      eapply pa_bind; [apply pa_token|]. cbn [fst tok_eqb tok_tag Nat.eqb].
      eapply pa_bind; [apply pb_tok; [apply ne_app; discriminate|reflexivity]|apply pa_ret].
    + cbn iota. replace (acc ++ a :: l) with ((acc ++ [a]) ++ l) by now rewrite <- app_assoc. apply IH; lia.
Qed.
(** The type proper; after it come neither a parenthesis nor WITH. *)
Lemma pb_basic ts s ty us n : basic_is o ts s ty -> us <> [] -> tok_eqb (hd_tok us) TLParen = false -> is_kw (hd_tok us) "WITH" = false -> length ts <= n ->
  parses (parse_type n) (ts ++ us) (s, ty) us.
Proof.
  intros B N F1 F2 L. unfold parse_type.
  destruct B; cbn [app length] in *; (eapply pa_bind; [apply pa_token|]); (eapply pa_bind; [apply pa_dialect|]); cbn [fst].
  - destruct H0 as (v & -> & K). rewrite (kw_assoc_in plain_types v k c) by (auto; vm_compute; reflexivity).
    eapply pa_bind; [apply pb_kw; [eexists; split; [reflexivity|exact K]|exact N]|apply pa_ret].
  - assert (X : kw_assoc plain_types t = None /\ kw_assoc width_types t = Some (k, c)).
    { destruct H0 as (v & -> & K). split; [|apply kw_assoc_in; [vm_compute; reflexivity|exact H]].
      apply has_key_assoc. cbn [In sized_types] in H. repeat (destruct H as [E|H]; [injection E as <- <-; vm_compute; reflexivity|]). destruct H. }
    destruct X as [-> ->]. eapply pa_bind; [apply pb_kw; [exact H0|apply ne_app, N]|]. eapply pa_bind; [apply pb_opt_width; eassumption|apply pa_ret].
  - pose proof H as K. destruct H as (v & -> & _). cbn [kw_assoc plain_types width_types is_kw kw_eqb String.eqb Ascii.eqb Bool.eqb].
    eapply pa_bind; [apply pb_kw; [exact K|apply ne_app, N]|]. eapply pa_bind; [apply pb_width_req; eassumption|apply pa_ret].
  - pose proof H as K. destruct H as (v & -> & _). cbn [kw_assoc plain_types width_types is_kw kw_eqb String.eqb Ascii.eqb Bool.eqb].
    eapply pa_bind; [apply pb_kw; [exact K|exact N]|]. destruct (o_dialect o); apply pa_ret.
  - pose proof H as K. destruct H as (v & -> & _). cbn [kw_assoc plain_types width_types is_kw kw_eqb String.eqb Ascii.eqb Bool.eqb].
    eapply pa_bind; [apply pb_kw; [exact K|exact N]|apply pa_ret].
  - pose proof H as K. destruct H as (v & -> & _). cbn [kw_assoc plain_types width_types is_kw kw_eqb String.eqb Ascii.eqb Bool.eqb].
    eapply pa_bind; [|apply pa_ret]. destruct (o_dialect o); try congruence; cbn [is_postgresql]; (apply pb_kw; [exact K|exact N]).
  - pose proof H as K. destruct H as (v & -> & _). cbn [kw_assoc plain_types width_types is_kw kw_eqb String.eqb Ascii.eqb Bool.eqb].
    rewrite H1. cbn [is_postgresql]. eapply pa_bind; [now apply pb_kws2|apply pa_ret].
  - pose proof H as K. destruct H as (v & -> & _). cbn [kw_assoc plain_types width_types is_kw kw_eqb String.eqb Ascii.eqb Bool.eqb].
    eapply pa_bind; [apply pb_kw; [exact K|discriminate]|]. eapply pa_bind; [apply pb_tok; [discriminate|reflexivity]|].
    eapply pa_bind; [apply pb_int; [eassumption|discriminate]|]. cbn iota. eapply pa_bind; [apply pb_tok; [discriminate|reflexivity]|].
    eapply pa_bind; [apply pb_int; [eassumption|discriminate]|]. cbn iota. eapply pa_bind; [apply pb_tok; [exact N|reflexivity]|apply pa_ret].
  - pose proof H as K. destruct H as (v & -> & _). cbn [kw_assoc plain_types width_types is_kw kw_eqb String.eqb Ascii.eqb Bool.eqb].
    rewrite <- app_assoc. eapply pa_bind; [apply pb_kw; [exact K|apply ne_app, ne_app, N]|].
    eapply pa_bind; [apply pb_opt_width; [eassumption|apply ne_app, N|]|].
    { destruct H1; cbn [app hd_tok fst]; [exact F1|]. destruct H as (? & -> & _). reflexivity. }
    destruct H1 as [|t1 s1 t2 s2 t3 s3 K1 K2 K3]; cbn [app].
    + eapply pa_bind; [apply pb_skip_no; [exact N|exact F2]|]. eapply pa_bind; [apply pa_ret|apply pa_ret].
    + eapply pa_bind; [apply pb_skip; [exact K1|discriminate]|]. eapply pa_bind; [|apply pa_ret].
      eapply pa_bind; [apply pb_kws2; eassumption|apply pa_ret].
  - pose proof H as K. destruct H as (v & -> & _). cbn [kw_assoc plain_types width_types is_kw kw_eqb String.eqb Ascii.eqb Bool.eqb].
    rewrite <- app_assoc. cbn [app]. rewrite app_length in L. cbn [length] in L.
    eapply pa_bind; [apply pb_kw; [exact K|discriminate]|]. eapply pa_bind; [apply pb_enum; [eassumption|exact N|lia]|apply pa_ret].
  - pose proof H as K. destruct H as (v & -> & _). cbn [kw_assoc plain_types width_types is_kw kw_eqb String.eqb Ascii.eqb Bool.eqb].
    rewrite <- app_assoc. cbn [app]. rewrite app_length in L. cbn [length] in L.
    eapply pa_bind; [apply pb_kw; [exact K|discriminate]|]. eapply pa_bind; [apply pb_enum; [eassumption|exact N|lia]|apply pa_ret].
  - pose proof H as K. destruct H as (v & -> & _). cbn [kw_assoc plain_types width_types is_kw kw_eqb String.eqb Ascii.eqb Bool.eqb].
    eapply pa_bind; [apply pb_kw; [exact K|apply ne_app, N]|]. eapply pa_bind; [apply pb_width_req; eassumption|]. cbn iota. apply pa_ret.
  - assert (X : forall w, In w type_words -> is_kw (TIdent v k) w = false).
    { intros w I. destruct k as [| |x]; try reflexivity. cbn [is_kw kw_eqb]. destruct (String.eqb_spec x w) as [->|]; [|reflexivity]. now destruct (H0 w eq_refl). }
    assert (Y : forall A (l : list (string * A)), incl (map fst l) type_words -> kw_assoc l (TIdent v k) = None).
    { intros A l I. apply not_kw_assoc. destruct (existsb _ _) eqn:E; [|reflexivity]. apply existsb_exists in E as (w & I' & E). rewrite X in E by now apply I. discriminate. }
    rewrite (Y _ plain_types), (Y _ width_types), !X by (unfold type_words, incl; intros; rewrite ?in_app_iff; cbn [In]; tauto).
    rewrite H. cbn [is_postgresql]. eapply pa_bind; [apply pb_consume; [assumption|np]|apply pa_ret].
Qed.
Lemma basic_len ts s ty : basic_is o ts s ty -> 0 < length ts.
Proof. intros []; cbn [length]; lia. Qed.
Lemma zone_len ts z : zone_is o ts z -> ts = [] \/ exists t, hd_tok ts = t /\ kw_tok "WITH" t.
Proof. intros []; eauto. Qed.

(** ** Lists of names *)
Lemma pb_idents ts l us m : commas (ident_is o) ts l -> us <> [] -> tok_eqb (hd_tok us) TComma = false -> length ts < m ->
  parses (sep_list m consume_plain_identifier) (ts ++ us) l us.
Proof.
  intros C N F L. eapply (pb_sep _ (ident_is o) consume_plain_identifier (fun _ => true) ts l m); auto.
  intros ts' a us' H N' _ _. now apply pb_ident.
Qed.
Lemma pb_list2 A (P : tks -> A -> Prop) (p : prog A) ts l n m s us : commas P ts l ->
  (forall ts a us, P ts a -> us <> [] -> hd_tok us = TComma \/ hd_tok us = TRParen -> length ts < n -> parses p (ts ++ us) a us) ->
  us <> [] -> length ts < n -> length ts < m ->
  parses (recovered_list2 m p) (ts ++ (TRParen, s) :: us) l ((TRParen, s) :: us).
Proof.
  intros C H N L1 L2. unfold recovered_list2. set (body := fun l : list A => _).
  assert (G : forall acc, parses (loop m body acc) (ts ++ (TRParen, s) :: us) (acc ++ l) ((TRParen, s) :: us)); [|apply (G [])].
  revert m L1 L2.
  induction C as [ts a X|ts a s' ts' l X C IH]; intros m L1 L2 acc; (destruct m as [|m]; [lia|]); cbn [loop].
  - eapply (pa_bind o _ _ _ _ _ (inr (acc ++ [a])) ((TRParen, s) :: us)); [|apply pa_ret].
    eapply (pa_bind o _ _ _ _ _ (Some a) ((TRParen, s) :: us)).
    { eapply pa_recovered; [|reflexivity]. eapply pa_bind; [apply H; [exact X|discriminate|now right|exact L1]|apply pa_ret]. }
    cbv zeta. eapply pa_bind; [apply pa_token|]. cbn [fst tok_eqb tok_tag Nat.eqb]. apply pa_ret.
  - rewrite app_length in L1, L2. cbn [length] in L1, L2. rewrite <- app_assoc. cbn [app].
    eapply (pa_bind o _ _ _ _ _ (inl (acc ++ [a])) (ts' ++ (TRParen, s) :: us)).
    + eapply (pa_bind o _ _ _ _ _ (Some a) ((TComma, s') :: ts' ++ (TRParen, s) :: us)).
      { eapply pa_recovered; [|reflexivity]. eapply pa_bind; [apply H; [exact X|discriminate|now left|lia]|apply pa_ret]. }
      cbv zeta. eapply pa_bind; [apply pa_token|]. cbn [fst tok_eqb tok_tag Nat.eqb].
      eapply pa_bind; [apply pb_tok; [apply ne_app; discriminate|reflexivity]|apply pa_ret].
    + cbn iota. replace (acc ++ a :: l) with ((acc ++ [a]) ++ l) by now rewrite <- app_assoc. apply IH; lia.
Qed.
(** ** Index hints and locking *)
Lemma hint_len ts h : hint_is o ts h -> 0 < length ts.
Proof. intros []. cbn. lia. Qed.
Lemma hints_hd ts h : hints_are o ts h -> ts = [] \/ exists k v, In k (map fst hint_words) /\ hd_tok ts = TIdent v (KW k).
Proof.
  intros [|ts' h' us l D [k c t s k' c' t' s' fs f s1 ns ls s2 I (v & ->) _ _ _ _] H]; [now left|right]. exists k, v. split; [|reflexivity].
  apply in_map_iff. now exists (k, c).
Qed.
Lemma pb_hint ts h us n : hint_is o ts h -> us <> [] -> length ts <= n -> parses (parse_index_hint n) (ts ++ us) (Some h) us.
Proof.
  intros [k c t s k' c' t' s' fs f s1 ns l s2 I (v & ->) I' (v' & ->) F C] N L. unfold parse_index_hint.
  cbn [app length] in *. rewrite <- !app_assoc. cbn [app]. rewrite <- !app_assoc. cbn [app]. rewrite !app_length in L. cbn [length] in L. rewrite app_length in L. cbn [length] in L.
  eapply pa_bind; [apply pa_token|]. cbn [fst]. rewrite (kw_assoc_in hint_uses v k c) by (auto; vm_compute; reflexivity).
  eapply pa_bind; [apply pb_consume; [discriminate|np]|]. cbv zeta. cbn [snd].
  eapply pa_bind; [apply pa_token|]. cbn [fst]. rewrite (kw_assoc_in hint_types v' k' c') by (auto; vm_compute; reflexivity).
  eapply (pa_bind o _ _ _ _ _ (mkTag c' s')); [eapply pa_bind; [apply pb_consume; [apply ne_app; discriminate|np]|apply pa_ret]|].
  assert (X : parses (f <- skip_keyword "FOR" ;;
      match f with
              | Some for_span =>
                  t <- token ;;
                  v <- (if is_kw t "JOIN" then s <- consume ;; Ret (mkTag "Join" s)
                        else if is_kw t "GROUP" then
                          s <- consume_keywords ["GROUP"; "BY"] ;; Ret (mkTag "GroupBy" s)
                        else if is_kw t "ORDER" then
                          s <- consume_keywords ["ORDER"; "BY"] ;; Ret (mkTag "OrderBy" s)
                        else expected_failure "'JOIN', 'GROUP BY' or 'ORDER BY'") ;;
                  Ret (Some (for_span, v))
              | None => Ret None
              end) (fs ++ (TLParen, s1) :: ns ++ (TRParen, s2) :: us) f ((TLParen, s1) :: ns ++ (TRParen, s2) :: us)).
  { destruct F as [|t s0 t' s'0 K (w & ->)|k0 c0 t s0 t' s'0 t2 s20 J K K' K2]; cbn [app].
    - eapply pa_bind; [apply pb_skip_no; [discriminate|reflexivity]|apply pa_ret].
    - eapply pa_bind; [apply pb_skip; [exact K|discriminate]|]. eapply pa_bind; [apply pa_token|].
      eapply pa_bind; [|apply pa_ret]. cbn [fst is_kw kw_eqb String.eqb Ascii.eqb Bool.eqb]. eapply pa_bind; [apply pb_consume; [discriminate|np]|apply pa_ret].
    - eapply pa_bind; [apply pb_skip; [exact K|discriminate]|]. eapply pa_bind; [apply pa_token|].
      eapply pa_bind; [|apply pa_ret]. pose proof K' as (w & -> & _). cbn [fst].
      cbn [In] in J. destruct J as [E|[E|[]]]; injection E as <- <-; cbn [is_kw kw_eqb String.eqb Ascii.eqb Bool.eqb];
        (eapply pa_bind; [apply pb_kws2; [exact K'|exact K2|discriminate]|apply pa_ret]). }
  apply pa_assoc. eapply pa_bind; [exact X|].
  eapply pa_bind; [apply pb_tok; [apply ne_app; discriminate|reflexivity]|].
  eapply pa_bind; [apply (pb_list2 _ (ident_is o) _ ns l n n); auto; try lia; intros; now apply pb_ident|].
  eapply pa_bind; [apply pb_tok; [exact N|reflexivity]|apply pa_ret].
Qed.
(** What does not begin an index hint. *)
Definition no_hint (t : tok) : bool := negb (existsb (is_kw t) (map fst hint_words)).
Definition read_hints (n : nat) : prog (list index_hint) :=
  loop n (fun l : list index_hint =>
    h <- parse_index_hint n ;;
    match h with Some h => Ret (inl (l ++ [h])) | None => Ret (inr l) end) [].
Lemma pb_hints ts l us n : hints_are o ts l -> us <> [] -> no_hint (hd_tok us) = true -> length ts < n -> parses (read_hints n) (ts ++ us) l us.
Proof.
  intros H N F L. unfold read_hints. set (body := fun l : list index_hint => _).
  assert (G : forall m acc, length ts < m -> parses (loop m body acc) (ts ++ us) (acc ++ l) us); [|apply (G n [] L)].
  induction H as [|ts h ts' l D H Hs IH]; intros m acc Lm; (destruct m as [|m]; [lia|]); cbn [loop app].
  - eapply (pa_bind o _ _ _ _ _ (inr (acc ++ [])) us); [|apply pa_ret]. rewrite app_nil_r.
    eapply (pa_bind o _ _ _ _ _ None us); [|apply pa_ret]. unfold parse_index_hint. eapply pa_bind; [now apply pb_token|].
    rewrite not_kw_assoc by (now apply negb_true_iff in F). apply pa_ret.
  - pose proof (hint_len _ _ H) as Lh. rewrite app_length in L, Lm. rewrite <- app_assoc.
    eapply (pa_bind o _ _ _ _ _ (inl (acc ++ [h])) (ts' ++ us)).
    + eapply pa_bind; [apply pb_hint; [exact H|now apply ne_app|lia]|apply pa_ret].
    + cbn iota. replace (acc ++ h :: l) with ((acc ++ [h]) ++ l) by now rewrite <- app_assoc. apply IH; lia.
Qed.
Lemma strength_head ts g : strength_is o ts g -> heads [W "UPDATE"; W "SHARE"; W "NO"; W "KEY"] ts.
Proof. intros []; (eapply heads_kw; [eassumption|cbn; tauto]). Qed.
Lemma of_head ts g : of_is o ts g -> ts = [] \/ heads [W "OF"] ts.
Proof. intros []; [now left|right]. eapply heads_kw; [eassumption|cbn; tauto]. Qed.
Lemma wait_head ts g : wait_is o ts g -> ts = [] \/ heads [W "NOWAIT"; W "SKIP"] ts.
Proof. intros []; [now left|right|right]; (eapply heads_kw; [eassumption|cbn; tauto]). Qed.
Lemma locking_head ts g : locking_is o ts g -> ts = [] \/ heads [W "FOR"] ts.
Proof. intros []; [now left|right]. eapply heads_kw; [eassumption|cbn; tauto]. Qed.
(** What may not follow FOR UPDATE and so on. *)
Definition no_lock (t : tok) : bool :=
  negb (is_kw t "FOR" || is_kw t "OF" || is_kw t "NOWAIT" || is_kw t "SKIP" || tok_eqb t TComma).
Lemma pb_locking ts g us r : locking_is o ts g -> us <> [] -> no_lock (hd_tok us) = true -> length ts < r_n r -> parses (parse_locking r) (ts ++ us) g us.
Proof.
  intros H N F L. apply negb_true_iff in F.
  repeat (match type of F with _ || _ = false => let X := fresh "F" in apply orb_false_elim in F as [F X] end).
  unfold parse_locking. destruct H as [|t s ss g os f ws w K S O Wt]; cbn [app].
  { eapply pa_bind; [now apply pb_skip_no|apply pa_ret]. }
  rewrite <- !app_assoc. cbn [length] in L. rewrite !app_length in L.
  eapply pa_bind; [apply pb_skip; [exact K|]|].
  { apply ne_app, ne_app, ne_app, N. }
  pose proof (strength_head _ _ S) as Hs.
  assert (NW : ws ++ us <> []) by now apply ne_app. assert (NO : os ++ ws ++ us <> []) by now apply ne_app.
  eapply pa_bind; [apply pb_token; now apply ne_app|].
  eapply (pa_bind o _ _ _ _ _ g (os ++ ws ++ us)).
  { destruct S as [t' s' K1|t' s' K1|t' s' t2 s2 t3 s3 D K1 K2 K3|t' s' t2 s2 D K1 K2]; pose proof K1 as (v & -> & _); cbn [app hd_tok fst is_kw kw_eqb String.eqb Ascii.eqb Bool.eqb].
    - eapply pa_bind; [now apply pb_kw|apply pa_ret].
    - eapply pa_bind; [now apply pb_kw|apply pa_ret].
    - eapply pa_bind; [now apply pb_kws3|apply pa_ret].
    - eapply pa_bind; [now apply pb_kws2|apply pa_ret]. }
  eapply pa_bind; [apply pa_dialect|].
  eapply (pa_bind o _ _ _ _ _ tt (os ++ ws ++ us)).
  { destruct S as [t' s' K1|t' s' K1|t' s' t2 s2 t3 s3 D K1 K2 K3|t' s' t2 s2 D K1 K2]; try rewrite D; cbn; apply pa_ret. }
  cbn beta iota.
  assert (Z : parses (o <- skip_keyword "OF" ;;
      match o with
            | Some of_span =>
                l <- sep_list (r_n r) consume_plain_identifier ;; Ret (Some (of_span, l))
            | None => Ret None
            end) (os ++ ws ++ us) f (ws ++ us)).
  { destruct O as [|t' s' ts l K1 C]; cbn [app].
    - eapply pa_bind; [apply pb_skip_no; [exact NW|]|apply pa_ret]. destruct (wait_head _ _ Wt) as [-> |X]; [exact F3|].
      apply (heads_pre _ _ us) in X. hd_tac X.
    - eapply pa_bind; [apply pb_skip; [exact K1|now apply ne_app]|]. eapply pa_bind; [apply pb_idents; [exact C|exact NW| |cbn [length] in L; lia]|apply pa_ret].
      destruct (wait_head _ _ Wt) as [-> |X]; [exact F0|]. apply (heads_pre _ _ us) in X. hd_tac X. }
  apply pa_assoc. eapply pa_bind; [exact Z|].
  eapply pa_bind; [apply pb_token; exact NW|]. eapply pa_bind; [|apply pa_ret].
  destruct Wt as [|t' s' K1|t' s' t2 s2 K1 K2]; cbn [app].
  - rewrite F2, F1. apply pa_ret.
  - pose proof K1 as (v & -> & _). cbn [hd_tok fst is_kw kw_eqb String.eqb Ascii.eqb Bool.eqb]. eapply pa_bind; [now apply pb_kw|apply pa_ret].
  - pose proof K1 as (v & -> & _). cbn [hd_tok fst is_kw kw_eqb String.eqb Ascii.eqb Bool.eqb]. eapply pa_bind; [now apply pb_kws2|apply pa_ret].
Qed.
End Rules.
