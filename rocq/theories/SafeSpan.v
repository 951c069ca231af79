(** Issues placed at the span of an AST value. *)
From Verif Require Export SafeGo SpanFacts Select Dml.
Local Open Scope string_scope.
Local Open Scope list_scope.

Section SafeSpan.
Context {V : env}.
#[export] Instance vspan_closed : join_closed (wspan src) := wspan_join.
(** Panics of computing a span: only that of an empty block, and only where blocks occur. *)
Definition pB (b : bool) (w : panic) : Prop := b = true /\ w = PSpanOfBlock.
Definition spv (b : bool) (x : sres) : Prop := sok (wspan src) (pB b) x.
Lemma aspans_ok b l : Forall (ok b) l -> Forall (aspans (wspan src) (pB b)) l.
Proof.
  apply Forall_impl. intros [s|v s|v s|n s|s|lf s|f s|w]; cbn; auto.
  - intros (w & H & _). eapply wat_wspan; eauto.
  - intros [H _]. eapply wat_wspan; eauto.
  - intros (w & H & _). eapply wat_wspan; eauto.
  - intros (w & H & _). eapply wat_wspan; eauto.
Qed.
Lemma spv_of b T (A : Atoms T) (Sp : Spanned T) (H : SpOk (wspan src) (pB b) T) (v : T) :
  Forall (ok b) (atoms v) -> spv b (spn v).
Proof. intros X. apply (H v), aspans_ok, X. Qed.
Lemma spv_jn b x y : spv b x -> spv b y -> spv b (jn x y).
Proof. apply sok_jn; typeclasses eauto. Qed.
Lemma spv_expr b (e : expr) : Forall (ok b) (atoms e) -> spv b (spn e).
Proof. intros X. apply expr_spok; [typeclasses eauto|now apply aspans_ok]. Qed.
Lemma spv_stmt b (e : stmt) : Forall (ok b) (atoms e) -> spv b (spn e).
Proof. intros X. apply stmt_spok; [typeclasses eauto|now apply aspans_ok]. Qed.

Lemma step_err_at U b t x (k : unit -> prog U) Q E S : cx E S -> spv b x -> x <> SNone -> plain (txt t) = true ->
  (b = true -> pan PSpanOfBlock) ->
  (forall S', cx E S' -> m S' <= m S -> nerr E + 1 <= nerr S' -> AA S + winv <= AA S' -> tk S' = tk S -> wp (k tt) Q (fpost E) S') ->
  wp (bind (err_at t x) k) Q (fpost E) S.
Proof.
  intros C Hx Hn Hp Hb H. destruct x as [w| |s]; cbn in Hx.
  - destruct Hx as [Hb' ->]. intros _. exact (Hb Hb').
  - congruence.
  - eapply err0; eauto.
Qed.
Lemma step_feature_at U b f (c : bool) t x (k : unit -> prog U) Q E S : cx E S -> spv b x -> x <> SNone ->
  t = feature_message f -> c = feature_in f (o_dialect opts) -> plain (txt t) = true \/ c = true ->
  (b = true -> pan PSpanOfBlock) ->
  (forall S', cx E S' -> m S' <= m S -> AA S <= AA S' -> tk S' = tk S -> (forall b, Forall (ok b) (used f x)) ->
     wp (k tt) Q (fpost E) S') ->
  wp (bind (if c then Ret tt else err_at t x) k) Q (fpost E) S.
Proof.
  intros C Hx Hn Ht Hc Hp Hb H. destruct x as [w| |s]; cbn in Hx.
  - destruct c; [apply H; auto; constructor; [left; now symmetry|constructor]|]. destruct Hx as [Hb' ->]. intros _. exact (Hb Hb').
  - congruence.
  - eapply step_feature; eauto.
Qed.
Lemma step_err_at_frag U b f0 t x f fs (k : unit -> prog U) Q E S : cx E S -> spv b x -> t = feature_message f0 -> plain (txt t) = true -> wspan src fs ->
  (b = true -> pan PSpanOfBlock) ->
  (forall S', cx E S' -> m S' <= m S -> AA S <= AA S' -> tk S' = tk S -> (forall b, Forall (ok b) (used f0 x)) -> wp (k tt) Q (fpost E) S') ->
  wp (bind (err_at_frag t x f fs) k) Q (fpost E) S.
Proof.
  intros C Hx Ht Hp Hf Hb H. destruct x as [w| |s]; cbn in Hx.
  - destruct Hx as [Hb' ->]. intros _. exact (Hb Hb').
  - apply H; auto. constructor.
  - eapply step_err_frags_finally; eauto. intros R S' C' _ M N A T _. apply H; auto; [lia|].
    intros b'. constructor; [|constructor]. right. subst t. unfold finally in *. destruct fin_issues; [|exact I].
    destruct f0; try exact R.
    all: destruct R as (i & R1 & R2 & _); unfold nerrs; apply in_split in R1 as (l1 & l2 & ->);
      rewrite filter_app, app_length; destruct i; cbn in R2; subst; cbn; lia.
Qed.
Lemma list_some (T : Type) (Sp : Spanned T) (l : list T) : (forall a, spn a <> SNone) -> l <> [] -> spn l <> SNone.
Proof.
  intros H Hl. destruct l as [|a l]; [congruence|]. intros K.
  change (fold_left (fun a b => jn a (spn b)) l (jn SNone (spn a)) = SNone) in K.
  assert (G : forall (l : list T) x, fold_left (fun a b => jn a (spn b)) l x = SNone -> x = SNone).
  { clear. induction l as [|b l IH]; cbn; auto. intros x H. now apply IH, jn_none in H as [-> _]. }
  apply G in K. exact (H a K).
Qed.
End SafeSpan.
(** The message about a feature that the dialect does not have may be reported. *)
Ltac fmsg := solve [reflexivity | unfold plain; destruct (o_dialect opts); (left; reflexivity) || (right; reflexivity)].
Ltac some_ :=
  lazymatch goal with
  | |- jn _ _ <> SNone => apply jn_l; some_
  | |- sexpect _ _ <> SNone => apply some_expect
  | |- @spn span _ _ <> SNone => apply some_span
  | |- @spn tagged _ _ <> SNone => apply some_tag
  | |- @spn stmt _ _ <> SNone => apply stmt_some
  | |- @spn ?T ?I ?v <> SNone =>
      let t1 := eval red in (@spn T I v) in let t2 := eval red in t1 in change (t2 <> SNone); cbv beta iota; some_
  end.
