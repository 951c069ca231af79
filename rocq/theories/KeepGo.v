(** C53, C54, C55: the tactic [kgo] that walks through a parser function, and the methods of [Parser]. *)
From Verif Require Export Keep.
Local Open Scope string_scope.
Local Open Scope list_scope.

Section Marks.
Context {E : kenv}.
Lemma is_kw_mark t k : is_kw t k = true -> mark t = false.
Proof. destruct t; try discriminate. cbn. intros H. apply kw_eqb_eq in H. subst. now destruct kkind. Qed.
Lemma kw_assoc_mark A (tbl : list (string * A)) t x : kw_assoc tbl t = Some x -> mark t = false.
Proof. destruct x as [k v]. intros H. apply kw_assoc_kw in H. eapply is_kw_mark; eauto. Qed.
Lemma tok_eqb_mark t w : tok_eqb t w = true -> mark w = false -> mark t = false.
Proof. intros H. apply tok_eqb_eq in H. now subst. Qed.
Lemma quoted_mark v : is_postgresql (o_dialect ko) = true -> mark (TDoubleQuotedString v) = false.
Proof. intros H. unfold mark. rewrite H. now destruct kkind as [|[]|]. Qed.
Lemma kw_eqb_mark v k w : kw_eqb k (KW w) = true -> mark (TIdent v k) = false.
Proof. intros H. apply kw_eqb_eq in H. subst. apply mark_kw. Qed.
Lemma pg_ident_mark v k : is_postgresql (o_dialect ko) = true -> mark (TIdent v k) = false.
Proof. intros H. unfold mark. destruct kkind eqn:Kk; auto. rewrite k_pg in H; [discriminate|exact Kk]. Qed.
End Marks.

Create HintDb kspec discriminated.
#[export] Hint Constants Opaque : kspec.
#[export] Hint Variables Opaque : kspec.
#[export] Hint Transparent span text : kspec.

Ltac unmarked :=
  first
  [ reflexivity | assumption
  | match goal with
    | H : is_kw ?t _ = true |- mark ?t = false => exact (is_kw_mark _ _ H)
    | H : kw_assoc _ ?t = Some _ |- mark ?t = false => exact (kw_assoc_mark _ _ _ _ H)
    | H : is_postgresql (o_dialect ko) = true |- mark (TDoubleQuotedString _) = false => exact (quoted_mark _ H)
    | H : kw_eqb ?k (KW _) = true |- mark (TIdent _ ?k) = false => exact (kw_eqb_mark _ _ _ H)
    | H : is_postgresql (o_dialect ko) = true |- mark (TIdent _ _) = false => exact (pg_ident_mark _ _ H)
    | |- mark (TIdent _ (KW _)) = false => exact (mark_kw _ _)
    | H : tok_eqb ?t _ = true |- mark ?t = false => apply (tok_eqb_mark _ _ H); solve [unmarked]
    | H : (_ || _)%bool = true |- _ => apply orb_true_iff in H as [H|H]; solve [unmarked]
    | H : (_ && _)%bool = true |- _ => apply andb_true_iff in H as [? ?]; solve [unmarked]
    end ].
Ltac kspec := solve [eauto with kspec].
Ltac knorm := knm; repeat match goal with
  | H : context [@kW _ func ?I ?x] |- _ => change (@kW _ func I x) with 0 in H
  | H : context [@kW _ binop ?I ?x] |- _ => change (@kW _ binop I x) with 0 in H
  | H : context [@kW _ unop ?I ?x] |- _ => change (@kW _ unop I x) with 0 in H
  | H : context [@kW _ is_ ?I ?x] |- _ => change (@kW _ is_ I x) with 0 in H
  | H : context [@kW _ variable ?I ?x] |- _ => change (@kW _ variable I x) with 0 in H
  | H : context [@kW _ tok ?I ?x] |- _ => change (@kW _ tok I x) with 0 in H
  end.
Ltac khook := idtac.
Ltac kfin := knorm; cbn [gctl gfine fst snd]; unfold uW;
  lazymatch goal with
  | |- _ <= _ => kwx; kwl
  | |- gctl _ (_, match ?x with _ => _ end) _ => destr x; knm; kfin
  | |- gctl _ _ _ => cbv beta iota delta [gctl]; cbn [fst snd]; unfold uW; kwx; kwl
  | |- gfine _ _ _ => split; cbn [fst snd]; [first [reflexivity|idtac]|unfold uW; kwx; kwl]
  | |- _ => khook end.
Ltac kintro := let a := fresh "a" in let n := fresh "n" in let L := fresh "L" in let t := fresh "t" in intros a n L t; unfold uW in L; knorm.
Ltac unpair := repeat match goal with x : (?A * ?B)%type |- _ => lazymatch A with nat => fail | _ => is_var x; destruct x end end; cbn [fst snd].
Ltac kgo :=
  lazymatch goal with
  | |- kp ?t ?c ?g ?p => kgo_prog t c g p
  | |- keeps_ _ => let t := fresh "t" in intros t; kgo
  end
with kgo_prog t c g p :=
  lazymatch p with
  | Ret _ => apply kp_ret; kfin
  | (let x := ?v in @?f x) => change (kp t c g (f v)); cbv beta; kgo
  | expected_failure _ => apply kp_expected_failure'
  | err_here _ => apply kp_err_here'
  | Panic _ => apply kp_panic
  | OutOfFuel => apply kp_fuel
  | match ?x with _ => _ end => destr x; knm; kgo
  | bind ?h ?k => kgo_bind h k t c g
  | consume => apply kp_consume'; [try unmarked|intros; kfin]
  | token => apply kp_token'; kfin
  | Try ?h ?k => try (eapply kp_try; [kspec|kintro; kgo])
  | recovered _ _ _ _ => apply kp_recovered; kgo
  | expect ?x _ => unfold expect; kgo
  | loop _ _ _ => eapply keeps_loop; [intros; unpair; knm; kgo|kfin]
  | recovered_acc _ _ (loop_acc _ _ []) => eapply kp_tail; [eapply keeps_acc_nil; intros; unpair; knm; kgo|intros; kfin]
  | _ => try (eapply kp_tail; [kspec|]); let a := fresh "a" in let n := fresh "n" in let L := fresh "L" in lazymatch goal with |- kp _ _ _ _ => idtac | _ => intros a n L; kfin end
  end
with kgo_bind h k t c g :=
  lazymatch h with
  | token => apply kp_token; intros _; kgo
  | peek => apply kp_peek; intros; kgo
  | cur_span => apply kp_span; intros; kgo
  | dialect_ => apply kp_dialect; kgo
  | perf OArguments => apply kp_arguments; kgo
  | perf OListHack => apply kp_listhack; kgo
  | perf ODelim => apply kp_delim; intros; kgo
  | perf _ => apply kp_silent; [reflexivity|intros; kgo]
  | Ret _ => change (kp t c g (k ltac:(match h with Ret ?a => exact a end))); cbv beta; kgo
  | next => apply kp_next; [try unmarked|intros; kgo]
  | consume => apply kp_consume; [try unmarked|intros; kgo]
  | err _ _ => apply kp_err
  | err_frags _ _ _ => apply kp_err_frags
  | err_at _ _ => apply kp_err_at
  | warn _ _ => apply kp_warn; kgo
  | expected_error _ => apply kp_expected_error
  | expected_failure _ => apply kp_expected_failure
  | err_here _ => apply kp_err_here
  | Panic _ => apply kp_panic
  | (match ?x with _ => _ end) => lazymatch type of h with prog unit => destr x; knm; kgo | prog N => destr x; knm; kgo | prog variable => destr x; knm; kgo | prog stmt => destr x; knm; kgo | _ => first [ kgo_inl | destr x; knm; kgo ] end
  | bind _ _ => lazymatch type of h with prog unit => apply kp_assoc; kgo | prog stmt => apply kp_assoc; kgo | prog N => apply kp_assoc; kgo | _ => first [ kgo_inl | apply kp_assoc; kgo ] end
  | expect ?x _ => unfold expect; destr x; knm; kgo
  | recovered _ _ _ _ => eapply (kp_bind _ _ _ _ _ uW); [apply kp_recovered; first [solve [kgo] | kgo] |kintro; kgo]
  | loop _ _ _ => eapply (kp_bind _ _ _ _ _ uW); [eapply keeps_loop; [intros; unpair; knm; kgo|kfin]|kintro; kgo]
  | recovered_acc _ _ (loop_acc _ _ []) => eapply kp_step; [eapply keeps_acc_nil; intros; unpair; knm; kgo|kintro; kgo]
  | _ => try (eapply kp_step; [kspec|]); lazymatch goal with |- kp _ _ _ _ => idtac | _ => kintro; kgo end
  end
with kgo_inl := eapply (kp_bind _ _ _ _ _ uW); [solve [kgo]|kintro; kgo].

Section Methods.
Context {E : kenv}.
Lemma consume_keyword_k k : keeps_ (consume_keyword k).
Proof. unfold consume_keyword. intros t. kgo. Qed.
Hint Resolve consume_keyword_k : kspec.
Lemma consume_keywords_from_k ks : forall s, keeps_ (consume_keywords_from s ks).
Proof. induction ks as [|k ks IH]; intros s; cbn [consume_keywords_from]; kgo. Qed.
Hint Resolve consume_keywords_from_k : kspec.
Lemma consume_keywords_k ks : keeps_ (consume_keywords ks).
Proof. unfold consume_keywords. kgo. Qed.
Lemma skip_keyword_k k : keeps_ (skip_keyword k).
Proof. unfold skip_keyword. kgo. Qed.
Lemma consume_token_k w : mark w = false -> keeps_ (consume_token w).
Proof. intros M. unfold consume_token. kgo. Qed.
Lemma skip_token_k w : mark w = false -> keeps_ (skip_token w).
Proof. intros M. unfold skip_token. kgo. Qed.
Lemma light_int (p : N * span) : (forall c, kkind <> KLits c) -> kW p = 0.
Proof. destruct p as [n s]. intros H. rewrite kW_int. now apply k_light. Qed.
Lemma light_string (s : sstring) : (forall c, kkind <> KLits c) -> kW s = 0.
Proof. intros H. destruct s. rewrite kW_string. now apply k_light. Qed.
Lemma light_ident (i : ident) : kkind <> KNames -> kW i = 0.
Proof. intros H. destruct i. rewrite kW_ident. now apply k_other. Qed.
Lemma tame_word t k : tame kkind kfun t = true -> In k ["INTERVAL"; "NUMERIC"; "BIT"] -> is_kw t k = true -> forall c, kkind <> KLits c.
Proof. unfold tame. destruct kkind; [discriminate| |discriminate]. intros H [<-|[<-|[<-|[]]]] K; rewrite K in H; cbn in H; rewrite ?orb_true_r in H; discriminate. Qed.
(** A literal that is read here. *)
Lemma kp_literal B t c (g : B -> nat -> Prop) (k : span -> prog B) : counted t = false ->
  (forall s t1, (mark t = true -> s = kspan -> placed t -> kp t1 (c + 1) g (k s)) /\ kp t1 c g (k s)) -> kp t c g (s <- consume ;; k s).
Proof.
  intros Ct H. destruct (mark t) eqn:M.
  - apply rk_marked; [exact M|exact Ct|]. intros s t1. destruct (H s t1) as [H1 H2]. split.
    + intros Hs Hp. eapply rk_conseq; [exact (H1 eq_refl Hs Hp)|]. cbv beta. intros b n. now rewrite <- Nat.add_assoc.
    + intros _. exact H2.
  - apply kp_consume; [exact M|]. intros s t1. apply H.
Qed.
(** A token that was consumed at [s]; [n] tells whether it is the one of interest. *)
Definition held (x : tok) (s : span) (n : nat) : Prop := n = 0 \/ (n = 1 /\ mark x = true /\ s = kspan /\ placed x).
Lemma kp_hold B t c (g : B -> nat -> Prop) (k : span -> prog B) : counted t = false ->
  (forall s n, held t s n -> forall t1, kp t1 (c + n) g (k s)) -> kp t c g (s <- consume ;; k s).
Proof.
  intros Ct H. apply kp_literal; [exact Ct|]. intros s t1. split.
  - intros M Hs Hp. apply H. right. auto.
  - specialize (H s 0 (or_introl eq_refl) t1). now rewrite Nat.add_0_r in H.
Qed.
Lemma held_unmarked x s n : mark x = false -> held x s n -> n = 0.
Proof. intros M [->|(-> & M' & _)]; [reflexivity|congruence]. Qed.
Lemma mark_name v k : mark (TIdent v k) = true -> kkind = KNames.
Proof. unfold mark. now destruct kkind. Qed.
Lemma held_ident v k s n : held (TIdent v k) s n -> n <= kwt (AIdent v s).
Proof. intros [->|(-> & M & -> & P)]; [lia|]. cbn [placed] in P. subst. apply mark_name in M. apply (k_name M). Qed.
Lemma token_to_plain_identifier_k x s t n : held x s n -> kp t n uW (token_to_plain_identifier x s).
Proof.
  intros H. unfold token_to_plain_identifier. destruct x; try apply kp_expected_failure'. apply held_ident in H. kgo. all: rewrite kW_ident; lia.
Qed.
Lemma consume_plain_identifier_k : keeps_ consume_plain_identifier.
Proof.
  intros t. unfold consume_plain_identifier. apply kp_token. intros _. destruct t; try apply kp_expected_failure'.
  - apply kp_span. intros s. apply kp_dialect.
    assert (F : kp (TIdent t k) 0 uW (c <- consume ;; Ret (mkIdent t c))).
    { apply kp_hold; [reflexivity|]. intros s1 n H t1. apply kp_ret. unfold uW. rewrite kW_ident. apply held_ident in H. lia. }
    destruct (kw_reserved k); [apply kp_err_frags|]. destruct (negb (kw_eqb k QUOTED_IDENTIFIER)); [apply kp_silent; [reflexivity|intros []; exact F]|].
    destruct (is_postgresql (o_dialect ko)); [apply kp_err|exact F].
  - apply kp_dialect. destruct (is_postgresql (o_dialect ko)) eqn:Pg; [|apply kp_expected_failure']. kgo.
Qed.
Definition covers (s : span) : Prop := fst s <= fst kspan /\ snd kspan <= snd s.
Lemma covers_join a b : covers a \/ covers b -> covers (join a b).
Proof. unfold covers, join. cbn [fst snd]. lia. Qed.
Lemma string_kind t v : string_token t = Some v -> counted t = false /\ (mark t = true -> kkind = KLits LkStr).
Proof. unfold mark. destruct t; try discriminate; intros _; (split; [reflexivity|]); destruct kkind as [|[]|]; auto; discriminate. Qed.
Lemma consume_string_k n : keeps_ (consume_string n).
Proof.
  intros t. apply rk_once. change (kp t 0 (fun (a : sstring) m => 0 < m -> 1 <= kW a) (consume_string n)).
  unfold consume_string. apply kp_token. intros _. destruct (string_token t) as [v|] eqn:Sv; [|apply kp_expected_failure'].
  destruct (string_kind _ _ Sv) as [Ct Ck].
  assert (L : forall a b t1 c, (0 < c -> kkind = KLits LkStr /\ covers b) -> kp t1 c (fun (a : sstring) m => 0 < m -> 1 <= kW a) (loop n (fun ab : text * span =>
                t <- token ;;
                match string_token t with
                | Some v => s <- consume ;; Ret (inl (fst ab ++ v, join (snd ab) s))
                | None => Ret (inr (mkSString (fst ab) (snd ab)))
                end) (a, b))).
  { intros a b t1 c H. apply kp_loop with (gx := fun (ab : text * span) c => 0 < c -> kkind = KLits LkStr /\ covers (snd ab)); [|exact H]. clear. intros [a b] t1 c H. cbn [fst snd] in *.
    apply kp_token. intros _. destruct (string_token t1) as [v|] eqn:Sv.
    - destruct (string_kind _ _ Sv) as [Ct Ck]. apply kp_literal; [exact Ct|]. intros s t2. split; [intros Mk Hs _|]; apply kp_ret; cbv iota; cbn [snd]; intros Z.
      + split; [auto|]. apply covers_join. right. subst s. unfold covers. lia.
      + destruct (H Z) as [H1 H2]. split; [exact H1|]. apply covers_join. now left.
    - apply kp_ret. intros Z. destruct (H Z) as [H1 [H2 H3]]. rewrite kW_string. now apply k_str. }
  apply kp_literal; [exact Ct|]. intros s t2. split; [intros Mk Hs _|]; apply L.
  - intros _. split; [auto|]. subst s. unfold covers. lia.
  - lia.
Qed.
Lemma consume_int_k m : keeps_ (consume_int m).
Proof.
  intros t. unfold consume_int. apply kp_token. intros _. destruct t; try apply kp_expected_failure'. destruct (digits_value _ <=? m)%N; [|apply kp_assoc, kp_span; intros s; apply kp_assoc, kp_err].
  change (bind (Ret ?x) ?k) with (k x). cbv beta. apply kp_literal; [reflexivity|]. intros s t2. split; [intros Mk Hs Hp|]; apply kp_ret; unfold uW; [|lia].
  subst s. cbn [placed] in Hp. rewrite Hp, kW_int. unfold mark in Mk. destruct kkind as [|[]|] eqn:Kk; try discriminate. pose proof (k_int Kk). lia.
Qed.
Lemma consume_float_k t : kp t 0 (fun v n => n <= kwt (ALeaf (LFloat (fst v)) (snd v))) consume_float.
Proof.
  unfold consume_float. apply kp_token. intros _. destruct t; try apply kp_expected_failure'. apply kp_literal; [reflexivity|]. intros s t2. split; [intros Mk Hs Hp|]; apply kp_ret; cbn [fst snd]; [|lia].
  subst s. unfold mark in Mk. destruct kkind as [|[]|] eqn:Kk; try discriminate. cbn [placed] in Hp. subst. pose proof (k_float Kk). lia.
Qed.
End Methods.
#[export] Hint Resolve consume_keyword_k consume_keywords_k consume_keywords_from_k skip_keyword_k
  consume_plain_identifier_k consume_string_k consume_int_k : kspec.
#[export] Hint Extern 1 (keeps_ (consume_token _)) => (apply consume_token_k; unmarked) : kspec.
#[export] Hint Extern 1 (keeps_ (skip_token _)) => (apply skip_token_k; unmarked) : kspec.

Section Combinators.
Context {E : kenv}.
Lemma sep_list_k T (I : Atoms T) n (p : prog T) : keeps_ p -> keeps_ (sep_list n p).
Proof. intros H. unfold sep_list. eapply keeps_loop_nil. intros l t c L0. eapply kp_step; [exact H|kintro]. kgo. Qed.
Lemma sep_list_recovered_k T (I : Atoms T) n x (p : prog T) : keeps_ p -> keeps_ (sep_list_recovered n x p).
Proof. intros H. unfold sep_list_recovered. eapply keeps_acc_nil. intros l t c L0. eapply kp_step; [exact H|kintro]. eapply kp_step; [kspec|kintro]. destruct a0; kgo. Qed.
Lemma recovered_some T (I : Atoms T) x e (p : prog T) : keeps_ p -> keeps_ (recovered None x e (a <- p ;; Ret (Some a))).
Proof. intros H t. apply kp_recovered. eapply kp_step; [exact H|kintro]. kgo. Qed.
Lemma recovered_list_k T (I : Atoms T) n (p : prog T) : keeps_ p -> keeps_ (recovered_list n p).
Proof. intros H. unfold recovered_list. eapply keeps_loop_nil. intros l t c L0. eapply kp_step; [apply recovered_some, H|kintro]. destruct a; knm; kgo. Qed.
Lemma recovered_list2_k T (I : Atoms T) n (p : prog T) : keeps_ p -> keeps_ (recovered_list2 n p).
Proof. intros H. unfold recovered_list2. eapply keeps_loop_nil. intros l t c L0. eapply kp_step; [apply recovered_some, H|kintro]. destruct a; knm; kgo. Qed.
End Combinators.
#[export] Hint Extern 1 (keeps_ (sep_list _ _)) => (eapply sep_list_k; kspec) : kspec.
#[export] Hint Extern 1 (keeps_ (sep_list_recovered _ _ _)) => (eapply sep_list_recovered_k; kspec) : kspec.
#[export] Hint Extern 1 (keeps_ (recovered_list _ _)) => (eapply recovered_list_k; kspec) : kspec.
#[export] Hint Extern 1 (keeps_ (recovered_list2 _ _)) => (eapply recovered_list2_k; kspec) : kspec.
#[export] Hint Extern 1 (keeps_ (recovered None _ _ (_ <- _ ;; Ret (Some _)))) => (eapply recovered_some; kspec) : kspec.
(** Lists whose elements are read by an anonymous parser. *)
Ltac klist :=
  lazymatch goal with
  | |- kp _ _ _ (bind (@sep_list ?T ?n ?p) _) => eapply kp_step; [apply (sep_list_k T _ n p); intros ?; kgo|kintro; kgo]
  | |- kp _ _ _ (bind (@sep_list_recovered ?T ?n ?x ?p) _) => eapply kp_step; [apply (sep_list_recovered_k T _ n x p); intros ?; kgo|kintro; kgo]
  end.
