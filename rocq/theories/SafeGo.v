(** The tactic [go] that walks through a parser function, and the specifications of the list
    combinators. *)
From Verif Require Export SafeSeg.
From Verif Require PropsBasic.
Local Open Scope string_scope.
Local Open Scope list_scope.

Create HintDb spec discriminated.
#[export] Hint Constants Opaque : spec.
#[export] Hint Variables Opaque : spec.
#[export] Hint Transparent span text : spec.

Section Steps.
Context {V : env}.
Lemma step0 T U (I : Atoms T) b N i d g (p : prog T) (k : T -> prog U) E S Q :
  spec b N i d d0 g p -> cx E S -> m S < N ->
  (forall a S', cx E S' -> m S' + d a <= m S -> AA S + g a <= AA S' + i -> Forall (ok b) (atoms a) ->
     wp (k a) Q (fpost E) S') ->
  wp (bind p k) Q (fpost E) S.
Proof. intros. eapply step_; eauto. Qed.
Lemma step0_inl T U (I : Atoms T) b i d g (p : prog T) (k : T -> prog U) E S Q :
  cx E S -> (cx S S -> wp p (post S b i d d0 g) (fpost S) S) ->
  (forall a S', cx E S' -> m S' + d a <= m S -> AA S + g a <= AA S' + i -> Forall (ok b) (atoms a) ->
     wp (k a) Q (fpost E) S') ->
  wp (bind p k) Q (fpost E) S.
Proof. intros C H1 H2. eapply step_inl; [apply H1, cx_refl, C|eassumption|]. intros; eapply H2; eauto. Qed.
Lemma tail0 T (I : Atoms T) b N i d g (p : prog T) E S (Q : T -> gst -> Prop) :
  spec b N i d d0 g p -> cx E S -> m S < N ->
  (forall a S', cx E S' -> m S' + d a <= m S -> AA S + g a <= AA S' + i -> Forall (ok b) (atoms a) -> Q a S') ->
  wp p Q (fpost E) S.
Proof. intros. eapply tail_; eauto. Qed.
Lemma consume0 U (k : span -> prog U) Q E S : cx E S -> is_eof (tk S) = false ->
  (forall S' s, cx E S' -> m S' + 1 <= m S -> AA S <= AA S' -> wspan src s -> tseg S s S' -> wp (k s) Q (fpost E) S') ->
  wp (bind consume k) Q (fpost E) S.
Proof. apply step_consume_seg. Qed.
Lemma consume0_tail (Q : span -> gst -> Prop) E S : cx E S -> is_eof (tk S) = false ->
  (forall S' s, cx E S' -> m S' + 1 <= m S -> AA S <= AA S' -> wspan src s -> Q s S') ->
  wp consume Q (fpost E) S.
Proof. intros C He H. change consume with (bind consume Ret). eapply consume0; eauto. intros. apply wp_ret. eauto. Qed.
Lemma err0 U t s (k : unit -> prog U) Q E S : cx E S -> wspan src s -> plain (txt t) = true ->
  (forall S', cx E S' -> m S' <= m S -> nerr E + 1 <= nerr S' -> AA S + winv <= AA S' -> tk S' = tk S -> wp (k tt) Q (fpost E) S') ->
  wp (bind (err t s) k) Q (fpost E) S.
Proof. intros C Hs Hp H. eapply step_err; eauto. intros. apply H; auto. pose proof (c_nerr _ _ C). lia. Qed.
Lemma warn0 U t s (k : unit -> prog U) Q E S : cx E S -> wspan src s -> plain (txt t) = true ->
  (forall S', cx E S' -> m S' <= m S -> AA S <= AA S' -> tk S' = tk S -> wp (k tt) Q (fpost E) S') ->
  wp (bind (warn t s) k) Q (fpost E) S.
Proof. intros C Hs Hp H. eapply step_warn; eauto. Qed.
Lemma expected0 U t (k : unit -> prog U) Q E S : cx E S ->
  (forall S', cx E S' -> m S' <= m S -> nerr E + 1 <= nerr S' -> AA S + winv <= AA S' -> tk S' = tk S -> wp (k tt) Q (fpost E) S') ->
  wp (bind (expected_error t) k) Q (fpost E) S.
Proof. intros C H. eapply step_expected; eauto. intros. apply H; auto. pose proof (c_nerr _ _ C). lia. Qed.

Lemma post0 {T} {I : Atoms T} (E : gst) (b : bool) (i : nat) (d g : T -> nat) (a : T) (S : gst) :
  cx E S -> m S + d a <= m E -> AA E + g a <= AA S + i -> Forall (ok b) (atoms a) -> post E b i d d0 g a S.
Proof. intros C H1 H2 H3. pose proof (c_nerr _ _ C). unfold d0. split; [exact C|]. repeat split; auto; lia. Qed.
Lemma tag_ok b t : Forall (ok b) (atoms t) -> wspan src (tag_span t).
Proof. intros H. inversion H. assumption. Qed.
Lemma ss_okv b t : Forall (ok b) (atoms t) -> wspan src (ss_span t).
Proof. intros H. inversion H. assumption. Qed.
Lemma gW_ospan (a : option span) : gW a = 0.
Proof. destruct a; [rewrite gW_some; apply gW_span|reflexivity]. Qed.
Lemma okl_app b T (I : Atoms T) (l l' : list T) : Forall (ok b) (atoms l) -> Forall (ok b) (atoms l') -> Forall (ok b) (atoms (l ++ l')).
Proof. rewrite atoms_app. apply ok_app. Qed.
Lemma ok_tag b k s : wspan src s -> leaf_at (LTag k) s -> Forall (ok b) (atoms (mkTag k s)).
Proof. intros H H'. constructor; [exact H|]. now apply ok_leaf. Qed.
Lemma ok_ss b k s : wspan src s -> leaf_at (LStr k) s -> Forall (ok b) (atoms (mkSString k s)).
Proof. intros H H'. constructor; [exact H|]. now apply ok_leaf. Qed.
Lemma ok_int b (n : N) (s : span) : wspan src s -> leaf_at (LInt n) s -> Forall (ok b) (atoms (n, s)).
Proof. intros H H'. constructor; [exact H|]. now apply ok_leaf. Qed.
Lemma ok_unit b (n : time_unit) (s : span) : wspan src s -> leaf_at (LUnit n) s -> Forall (ok b) (atoms (n, s)).
Proof. intros H H'. constructor; [exact H|]. now apply ok_leaf. Qed.
Lemma ok_int_inv b (n : N) (s : span) : Forall (ok b) (atoms (n, s)) -> wspan src s /\ leaf_at (LInt n) s.
Proof. intros H. inversion H as [|x l H1 H2]. inversion H2. split; assumption. Qed.
Lemma ok_unit_inv b (n : time_unit) (s : span) : Forall (ok b) (atoms (n, s)) -> wspan src s /\ leaf_at (LUnit n) s.
Proof. intros H. inversion H as [|x l H1 H2]. inversion H2. split; assumption. Qed.
Lemma leaf_zero S : compat S -> 0 < nerr S -> leaf_at (LInt 0) (0, 0).
Proof. intros C H. exists []. split; [split; [exists [], src; auto|apply (wspan_0 S C H)]|]. left. split; [constructor|]. now left. Qed.
(** A constructor that is also spelled as [f] says. *)
Definition Atoms_as (f : string -> leaf) : Atoms tagged := fun t => [ALeaf (f (tag t)) (tag_span t)] ++ @atoms tagged Atoms_tagged t.
Lemma ok_as b f k s : wspan src s -> leaf_at (LTag k) s -> leaf_at (f k) s -> Forall (ok b) (@atoms _ (Atoms_as f) (mkTag k s)).
Proof. intros. apply (ok_app b [ALeaf (f k) s]); [now apply ok_leaf|now apply ok_tag]. Qed.
Lemma ok_as_inv b f t : Forall (ok b) (@atoms _ (Atoms_as f) t) -> leaf_at (f (tag t)) (tag_span t) /\ Forall (ok b) (@atoms tagged Atoms_tagged t).
Proof. intros H. inversion H. split; assumption. Qed.
Lemma ok_as_intro b f t : leaf_at (f (tag t)) (tag_span t) -> Forall (ok b) (@atoms tagged Atoms_tagged t) -> Forall (ok b) (@atoms _ (Atoms_as f) t).
Proof. intros. apply (ok_app b [ALeaf (f (tag t)) (tag_span t)]); [now apply ok_leaf|assumption]. Qed.
Lemma gW_as f t : @gW _ _ (Atoms_as f) t = 0.
Proof. unfold gW. change (@atoms _ (Atoms_as f) t) with ([ALeaf (f (tag t)) (tag_span t)] ++ @atoms tagged Atoms_tagged t). rewrite W_app, W_leaf. apply W_tagged. Qed.
(** The name of a type together with its text. *)
#[export] Instance Atoms_typed : Atoms (span * type_) | 0 := fun p => type_leaf (snd p) (fst p) ++ (atoms (fst p) ++ atoms (snd p)).
Lemma ok_typed b (s : span) (t : type_) : Forall (ok b) (type_leaf t s) -> wspan src s -> Forall (ok b) (atoms t) -> Forall (ok b) (atoms (s, t)).
Proof. intros. change (Forall (ok b) (type_leaf t s ++ (atoms s ++ atoms t))). apply ok_app; [assumption|apply ok_app; [now apply ok_span|assumption]]. Qed.
Lemma ok_typed_inv b (s : span) (t : type_) : Forall (ok b) (atoms (s, t)) -> Forall (ok b) (type_leaf t s) /\ wspan src s /\ Forall (ok b) (atoms t).
Proof.
  intros H. change (Forall (ok b) (type_leaf t s ++ (atoms s ++ atoms t))) in H. apply Forall_app in H as [H1 H]. apply Forall_app in H as [H2 H].
  inversion H2. auto.
Qed.
Lemma gW_typed (s : span) (t : type_) : gW (s, t) = gW t.
Proof. unfold gW. change (atoms (s, t)) with (type_leaf t s ++ (atoms s ++ atoms t)). now rewrite !W_app, W_type_leaf, W_span. Qed.
Lemma gW_Nspan (p : N * span) : gW p = 0. Proof. apply W_Nspan. Qed.
Lemma gW_unit_span (p : time_unit * span) : gW p = 0. Proof. apply W_unit_span. Qed.
Lemma ok_inv b s : wspan src s -> Forall (ok b) (atoms (mkInvalid s)).
Proof. intros H. constructor; [exact H|constructor; [exact H|constructor]]. Qed.
Lemma okl_cons b T (I : Atoms T) (x : T) (l : list T) : Forall (ok b) (atoms x) -> Forall (ok b) (atoms l) -> Forall (ok b) (atoms (x :: l)).
Proof. apply ok_app. Qed.
(** A check of the dialect: what was parsed is available, or that is reported. *)
Lemma step_feature U f (c : bool) t s (k : unit -> prog U) Q E S : cx E S -> wspan src s ->
  t = feature_message f -> c = feature_in f (o_dialect opts) -> plain (txt t) = true \/ c = true ->
  (forall S', cx E S' -> m S' <= m S -> AA S <= AA S' -> tk S' = tk S -> (forall b, Forall (ok b) (used f (SSome s))) ->
     wp (k tt) Q (fpost E) S') ->
  wp (bind (if c then Ret tt else err t s) k) Q (fpost E) S.
Proof.
  intros C Hs -> Hc Hp H. destruct c.
  - apply H; auto. intros b. constructor; [|constructor]. left. now symmetry.
  - destruct Hp as [Hp|]; [|discriminate]. eapply step_err_finally; eauto. intros R S' C' _ M N A T _. apply H; auto; [lia|].
    intros b. constructor; [|constructor]. right. unfold finally in *. destruct fin_issues; [|exact I].
    destruct f; try exact R.
    all: destruct R as (i & R1 & R2 & _); unfold nerrs; apply in_split in R1 as (l1 & l2 & ->);
      rewrite filter_app, app_length; destruct i; cbn in R2; subst; cbn; lia.
Qed.
Lemma W_key_lock t : W (key_lock t) = 0.
Proof. unfold key_lock. destruct (_ || _); [|reflexivity]. cbn. now rewrite wt_feature. Qed.
Definition flag_uses (l : list tagged) : list atom :=
  flat_map (fun g => if String.eqb (tag g) "HighPriority" || String.eqb (tag g) "Ignore" then [AFeature FReplaceFlag (tag_span g)] else []) l.
Lemma flag_uses_W l : W (flag_uses l) = 0.
Proof. induction l as [|g l IH]; [reflexivity|]. unfold flag_uses in *. cbn [flat_map]. rewrite W_app, IH. destruct (_ || _); cbn; [now rewrite wt_feature|reflexivity]. Qed.
Lemma W_replace_flags t l : W (replace_flags t l) = 0.
Proof. unfold replace_flags. destruct (String.eqb _ _); [apply flag_uses_W|reflexivity]. Qed.
Lemma W_source_uses T U c v s p : W (@source_uses T U c v s p) = 0.
Proof. unfold source_uses. destruct p; [apply W_used|]. destruct v, s; try reflexivity. cbn. now rewrite wt_feature. Qed.
End Steps.

(** ** Normalising facts *)
Ltac unf_atoms T I v :=
  let t1 := eval red in (@atoms T I v) in
  let t2 := eval red in t1 in
  change (@atoms T I v) with t2.
(** One level of [atoms] of a constructor application in the goal. *)
Ltac is_ctor v :=
  let h := match v with
           | ?f _ _ _ _ _ _ _ _ _ _ _ _ _ _ _ => f
           | _ => v end in idtac.
Ltac ctor_head v := lazymatch v with ?f _ => ctor_head f | _ => is_constructor v end.

(** The span of what could not be read, after an Error. *)
Ltac zspan := match goal with K : compat ?S |- _ => apply (wspan_0 S K); first [assumption | lia] end.
Ltac zleaf := match goal with K : compat ?S |- _ => apply (leaf_zero S K); first [assumption | lia] end.
(** The words at a span. *)
Ltac wordt :=
  lazymatch goal with
  | |- tok_word (tk ?S) _ =>
      match goal with
      | H : is_kw (tk S) _ = true |- _ => exact (kw_tok_word _ _ H)
      | H : kw_assoc _ (tk S) = Some (_, _) |- _ => exact (kw_assoc_word _ _ _ _ _ H)
      | H : tk S = tk ?S' |- _ => rewrite H; wordt
      end
  end.
Ltac segt :=
  lazymatch goal with
  | |- seg _ _ (join _ _) _ => first [ eapply seg_join; [segt|segt|speq] | eapply seg_joinr; [segt|segt|speq] ]
  | |- seg _ _ (_, _) _ => unfold sp_start, sp_end; eapply seg_pair; [segt|segt|speq]
  | |- seg _ _ ?s _ => first [ eassumption | match goal with T : tseg _ s _ |- _ => eapply tseg_seg; [exact T|wordt] end ]
  end
with speq := first [ reflexivity | eassumption | symmetry; eassumption ].
Ltac wordsc :=
  first [ reflexivity
        | match goal with
          | H : kw_assoc ?tbl _ = Some (?k, ?c) |- leaf_words ?l [?k] = true =>
              let f := match l with ?f c => f end in apply (kw_assoc_words _ f tbl _ k c H); first [assumption | reflexivity]
          | H : kw_assoc _ _ = Some (?k, _) |- leaf_words _ _ = true =>
              let H' := fresh in pose proof (kw_assoc_in _ _ _ _ _ H) as H'; cbn [In] in H';
              repeat destruct H' as [H'|H']; try (injection H' as <- <-; reflexivity); destruct H'
          end ].
Ltac leaft :=
  repeat match goal with H : (_ || _)%bool = true |- _ => apply orb_true_iff in H as [H|H] end;
  first [ eapply leaf_seg; [segt|wordsc]
        | lazymatch goal with |- leaf_at _ (sp ?S) => eapply leaf_tok; [solve [eapply c_wf; eassumption | assumption]|wordt|wordsc] end ].

Ltac okg :=
  lazymatch goal with
  | |- Forall (ok _) (@nil _) => constructor
  | |- Forall (ok _) (_ ++ _) => apply ok_app; okg
  | |- Forall (ok _) [ALeaf _ _] => apply ok_leaf; first [assumption | leaft]
  | |- Forall (ok _) (type_leaf _ _) => first [assumption | apply ok_mono; assumption]
  | |- Forall (ok _) (replace_flags _ _) => first [assumption | apply ok_mono; assumption]
  | |- Forall (ok _) (source_uses _ _ _ _) => first [assumption | apply ok_mono; assumption]
  | |- Forall (ok _) (used _ _) => first [assumption | apply ok_mono; assumption
      | match goal with H : forall b, Forall (ok b) (used _ _) |- _ => exact (H _) end | constructor; fail]
  | |- Forall (ok _) (key_lock _) => first [assumption | apply ok_mono; assumption
      | match goal with H : forall b, Forall (ok b) (key_lock _) |- _ => exact (H _) end | auto]
  | |- Forall (ok ?b) (@atoms ?T ?I ?v) =>
    first
      [ assumption
      | apply ok_mono; assumption
      | lazymatch T with
        | span => apply ok_span; vsp
        | (nat * nat)%type => apply ok_span; vsp
        | unit => constructor
        | bool => constructor
        | N => constructor
        | string => constructor
        | time_unit => constructor
        | tok => constructor
        | text => constructor
        | dialect => constructor
        | func => constructor
        | variable => constructor
        | binop => constructor
        | is_ => constructor
        | unop => constructor
        | list N => constructor
        | ctl => constructor
        | tagged => lazymatch v with
          | mkTag _ _ =>
            lazymatch I with Atoms_as _ => apply ok_as; [vsp|leaft|leaft] | _ => apply ok_tag; [vsp|leaft] end
          | _ => lazymatch I with Atoms_as _ => apply ok_as_intro; assumption end end
        | sstring => lazymatch v with mkSString _ _ => apply ok_ss; [vsp|assumption] end
        | invalid => lazymatch v with mkInvalid _ => apply ok_inv; vsp end
        | expr => ctor_head v; first [constructor; fail | autorewrite with at_ex; okg]
        | stmt => ctor_head v; autorewrite with at_ex; okg
        | tref _ _ => ctor_head v; autorewrite with at_ex; okg
        | list _ => lazymatch v with
                    | nil => constructor
                    | _ ++ _ => apply okl_app; okg
                    | _ :: _ => apply okl_cons; okg
                    end
        | option _ => lazymatch v with
                      | None => constructor
                      | Some ?x => lazymatch type of x with ?T' =>
                            let J := constr:(_ : Atoms T') in change (Forall (ok b) (@atoms T' J x)); okg end
                      end
        | (_ + _)%type => lazymatch v with
                      | inl ?x => lazymatch type of x with ?T' =>
                            let J := constr:(_ : Atoms T') in change (Forall (ok b) (@atoms T' J x)); okg end
                      | inr ?x => lazymatch type of x with ?T' =>
                            let J := constr:(_ : Atoms T') in change (Forall (ok b) (@atoms T' J x)); okg end
                      end
        | (N * span)%type => lazymatch v with (_, _) => apply ok_int; [vsp|first [assumption|zleaf|leaft]] end
        | (N * (nat * nat))%type => lazymatch v with (_, _) => apply ok_int; [vsp|first [assumption|zleaf|leaft]] end
        | (span * type_)%type => lazymatch v with (_, _) => apply ok_typed; [cbn [type_leaf]; okg|vsp|okg] end
        | (time_unit * span)%type => lazymatch v with (_, _) => apply ok_unit; [vsp|first [assumption|leaft]] end
        | (_ * _)%type => lazymatch v with
                      | (?x, ?y) => lazymatch type of x with ?T1 => lazymatch type of y with ?T2 =>
                            let J1 := constr:(_ : Atoms T1) in let J2 := constr:(_ : Atoms T2) in
                            change (Forall (ok b) (@atoms T1 J1 x ++ @atoms T2 J2 y)); apply ok_app; okg end end
                      end
        | _ => ctor_head v; unf_atoms T I v; okg
        end
      | lazymatch v with match ?x with _ => _ end => destruct x; norm; okg end ]
  end
with vsp :=
  lazymatch goal with
  | |- wspan _ (join _ _) => apply wspan_join; vsp
  | |- wspan _ (0, 0) => first [assumption | zspan]
  | |- wspan _ (sp ?S) => apply wf_wspan; solve [eapply c_wf; eassumption | assumption]
  | |- wspan _ (tag_span ?t) => first [assumption | eapply tag_ok; eassumption]
  | |- wspan _ (ss_span ?t) => first [assumption | eapply ss_okv; eassumption]
  | |- wspan _ (_, _) => first [assumption | eapply kwat_wspan, g_kw; segt]
  | |- wspan _ _ => first [assumption | eapply span_ok; eassumption]
  end
with norm :=
  repeat match goal with
  | H : Forall (ok ?b) (@atoms (N * span) Atoms_Nspan (_, _)) |- _ => apply ok_int_inv in H; destruct H
  | H : Forall (ok ?b) (@atoms (time_unit * span) Atoms_unit_span (_, _)) |- _ => apply ok_unit_inv in H; destruct H
  | H : Forall (ok ?b) (@atoms tagged (Atoms_as _) _) |- _ => apply ok_as_inv in H; destruct H
  | H : Forall (ok ?b) (@atoms (span * type_) Atoms_typed (_, _)) |- _ => apply ok_typed_inv in H; destruct H as (? & ? & ?)
  | H : Forall (ok _) (atoms (_, _)) |- _ => apply ok_pair in H; destruct H
  | H : Forall (ok ?b) (@atoms (option ?T) ?I (Some ?x)) |- _ =>
      let J := constr:(_ : Atoms T) in change (Forall (ok b) (@atoms T J x)) in H
  | H : Forall (ok ?b) (@atoms (option ?T) ?I None) |- _ => clear H
  | H : oseg _ _ (Some _) _ |- _ => cbn [oseg] in H
  | H : oseg _ _ None _ |- _ => destruct H
  | H : Forall (ok ?b) (@atoms unit _ _) |- _ => clear H
  | H : Forall (ok ?b) (@atoms bool _ _) |- _ => clear H
  | H : Forall (ok ?b) (@atoms N _ _) |- _ => clear H
  | H : Forall (ok ?b) (@atoms text _ _) |- _ => clear H
  | H : context [@gW _ _ Atoms_Nspan _] |- _ => rewrite gW_Nspan in H
  | H : context [@gW _ _ Atoms_unit_span _] |- _ => rewrite gW_unit_span in H
  | H : context [@gW _ _ (Atoms_as _) _] |- _ => rewrite gW_as in H
  | H : context [@gW _ _ Atoms_typed _] |- _ => rewrite gW_typed in H
  | H : context [gW (_, _)] |- _ => rewrite gW_pair in H
  | H : context [gopt (Some _)] |- _ => cbn [gopt] in H
  | H : context [gopt None] |- _ => cbn [gopt] in H
  | H : context [gW (Some _)] |- _ => rewrite gW_some in H
  | H : context [@gW _ (list _) _ (_ :: _)] |- _ => rewrite gW_cons in H
  | H : context [@gW _ (list _) _ (_ ++ _)] |- _ => rewrite gW_app in H
  | H : context [@gW _ (option ?T) ?I None] |- _ => change (@gW _ (option T) I None) with 0 in H
  | H : context [@gW _ (list ?T) ?I nil] |- _ => change (@gW _ (list T) I nil) with 0 in H
  | H : context [dopt (Some _)] |- _ => cbn [dopt] in H
  | H : context [dopt None] |- _ => cbn [dopt] in H
  | H : context [@d0 _ _] |- _ => unfold d0 in H
  | H : context [@d1 _ _] |- _ => unfold d1 in H
  | H : context [@gW _ span _ _] |- _ => rewrite gW_span in H
  | H : context [@gW _ (option span) _ _] |- _ => rewrite gW_ospan in H
  | H : context [@gW _ (nat * nat)%type _ _] |- _ => rewrite gW_span in H
  | H : context [@gW _ ident _ _] |- _ => rewrite gW_ident in H
  | H : context [@gW _ sstring _ _] |- _ => rewrite gW_sstring in H
  | H : context [@gW _ tagged _ _] |- _ => rewrite gW_tagged in H
  | H : context [@gW _ unit ?I ?x] |- _ => change (@gW _ unit I x) with 0 in H
  | H : context [@gW _ N ?I ?x] |- _ => change (@gW _ N I x) with 0 in H
  | H : context [@gW _ string ?I ?x] |- _ => change (@gW _ string I x) with 0 in H
  | H : context [@gW _ time_unit ?I ?x] |- _ => change (@gW _ time_unit I x) with 0 in H
  | H : context [@gW _ bool ?I ?x] |- _ => change (@gW _ bool I x) with 0 in H
  | H : context [@gW _ text ?I ?x] |- _ => change (@gW _ text I x) with 0 in H
  | H : context [@gW _ (list N) ?I ?x] |- _ => change (@gW _ (list N) I x) with 0 in H
  end.

(** Expand the weights in the goal. *)
Ltac gwx :=
  repeat match goal with
  | |- context [@gW _ _ Atoms_Nspan _] => rewrite gW_Nspan
  | |- context [@gW _ _ Atoms_unit_span _] => rewrite gW_unit_span
  | |- context [@gW _ _ (Atoms_as _) _] => rewrite gW_as
  | |- context [@gW _ _ Atoms_typed _] => rewrite gW_typed
  | |- context [gW (_, _)] => rewrite gW_pair
  | |- context [gopt (Some _)] => cbn [gopt]
  | |- context [gopt None] => cbn [gopt]
  | |- context [gW (Some _)] => rewrite gW_some
  | |- context [@gW _ (option ?T) ?I None] => change (@gW _ (option T) I None) with 0
  | |- context [@gW _ (list ?T) ?I nil] => change (@gW _ (list T) I nil) with 0
  | |- context [@gW _ (list ?T) ?I (_ ++ _)] => rewrite gW_app
  | |- context [@gW _ (list ?T) ?I (_ :: _)] => rewrite gW_cons
  | |- context [gW (inl _)] => rewrite gW_inl
  | |- context [gW (inr _)] => rewrite gW_inr
  | |- context [@gW _ span _ _] => rewrite gW_span
  | |- context [@gW _ (option span) _ _] => rewrite gW_ospan
  | |- context [@gW _ (nat * nat)%type _ _] => rewrite gW_span
  | |- context [@gW _ ident _ _] => rewrite gW_ident
  | |- context [@gW _ sstring _ _] => rewrite gW_sstring
  | |- context [@gW _ tagged _ _] => rewrite gW_tagged
  | |- context [@gW _ unit ?I ?x] => change (@gW _ unit I x) with 0
  | |- context [@gW _ N ?I ?x] => change (@gW _ N I x) with 0
  | |- context [@gW _ bool ?I ?x] => change (@gW _ bool I x) with 0
  | |- context [@gW _ string ?I ?x] => change (@gW _ string I x) with 0
  | |- context [@gW _ time_unit ?I ?x] => change (@gW _ time_unit I x) with 0
  | |- context [@gW _ text ?I ?x] => change (@gW _ text I x) with 0
  | |- context [@gW _ (list N) ?I ?x] => change (@gW _ (list N) I x) with 0
  | |- context [@gW _ tok ?I ?x] => change (@gW _ tok I x) with 0
  | |- context [@gW _ ctl ?I ?x] => change (@gW _ ctl I x) with 0
  | |- context [@gW _ func ?I ?x] => change (@gW _ func I x) with 0
  | |- context [@gW _ binop ?I ?x] => change (@gW _ binop I x) with 0
  | |- context [@gW _ unop ?I ?x] => change (@gW _ unop I x) with 0
  | |- context [@gW _ is_ ?I ?x] => change (@gW _ is_ I x) with 0
  | |- context [@gW _ variable ?I ?x] => change (@gW _ variable I x) with 0
  | |- context [@gW ?V ?T ?I ?v] =>
      lazymatch T with
      | invalid => fail
      | expr => ctor_head v; change (@gW V T I v) with (W (@atoms T I v)); autorewrite with at_ex; refold
      | stmt => ctor_head v; change (@gW V T I v) with (W (@atoms T I v)); autorewrite with at_ex; refold
      | tref _ _ => ctor_head v; change (@gW V T I v) with (W (@atoms T I v)); autorewrite with at_ex; refold
      | _ => ctor_head v;
        let t1 := eval red in (@atoms T I v) in
        let t2 := eval red in t1 in
        change (@gW V T I v) with (W t2); refold
      end
  end
with refold :=
  rewrite ?W_app, ?W_used, ?W_key_lock, ?W_replace_flags, ?W_source_uses, ?W_leaf, ?W_type_leaf; change (W []) with 0;
  repeat match goal with |- context [W (@atoms ?T ?I ?x)] => change (W (@atoms T I x)) with (gW x) end.

Ltac gwl :=
  lazymatch goal with
  | |- context [@gW _ ?T ?I (match ?x with _ => _ end)] => destruct x; norm; gwx; gwl
  | |- context [@gW _ invalid _ ?v] => pose proof (gW_invalid v); try lia
  | _ => try lia
  end.
Ltac mgoal := cbn [dopt dsum dctl fst snd]; unfold d0, d1; lia.
Ltac fin :=
  norm;
  lazymatch goal with
  | |- post ?E ?b ?i ?d ?e ?g ?a ?S =>
      apply post0; [assumption | mgoal | gwx; gwl | okg ]
  end.

(** The current token is not the end of the input. *)
Ltac live :=
  lazymatch goal with
  | |- is_eof (tk ?S) = false =>
      multimatch goal with
      | H : is_kw (tk S) _ = true |- _ => exact (is_kw_live _ _ H)
      | H : kw_assoc _ (tk S) = Some _ |- _ => exact (kw_assoc_live _ _ _ _ H)
      | H : tok_eqb (tk S) ?w = true |- _ => exact (tok_eqb_live _ _ H eq_refl)
      | H : string_token (tk S) = Some _ |- _ => exact (string_token_live _ _ H)
      | H : tk S = _ |- _ => rewrite H; reflexivity
      | H : is_eof (tk S) = false |- _ => exact H
      | H : tk S = tk ?S' |- _ => rewrite H; live
      | H : (is_kw (tk S) _ || _)%bool = true |- _ => apply orb_true_iff in H as [H|H]; live
      | H : (is_kw (tk S) _ && _)%bool = true |- _ => apply andb_true_iff in H as [H _]; live
      end
  end.
Ltac bnd := first [ apply Nat.lt_succ_diag_r | lia ].
Ltac ntac := first [ apply Nat.le_refl | lia ].
Ltac destr x := (is_var x; destruct x) || (let E := fresh "Et" in destruct x eqn:E; try match type of E with _ = false => clear E end).
Ltac intro_step := let C := fresh "C" in let M := fresh "M" in let A := fresh "A" in let O := fresh "O" in
  let a := fresh "a" in let S := fresh "S" in intros a S C M A O; norm.
Ltac intro_step' := let C := fresh "C" in let M := fresh "M" in let A := fresh "A" in let O := fresh "O" in
  let S := fresh "S" in intros S C M A O; norm.

Ltac sspec := solve [eauto with spec].
Ltac bof Q := lazymatch Q with post _ ?b _ _ _ _ => b | _ => constr:(false) end.

Ltac go :=
  lazymatch goal with
  | |- wp ?p ?Q ?F ?S => go_prog p Q F S
  | |- post _ _ _ _ _ _ _ _ => fin
  end
with go_prog p Q F S :=
  lazymatch p with
  | Ret _ => apply wp_ret; try fin
  | (let x := ?v in @?f x) => change (wp (f v) Q F S); cbv beta; go
  | expected_failure _ => eapply wp_expected_failure; eassumption
  | err_here _ => eapply wp_err_here; [eassumption|reflexivity]
  | Fail => eapply wp_fail; [eassumption|lia]
  | match ?x with _ => _ end => destr x; norm; go
  | bind ?h ?k => go_bind h k Q F S
  | err _ _ => apply wp_tail_ret; go
  | warn _ _ => apply wp_tail_ret; go
  | expected_error _ => apply wp_tail_ret; go
  | consume => eapply consume0_tail; [eassumption|live|intros]; fin
  | _ => eapply tail0; [sspec|eassumption|bnd|intro_step]; try fin
  end
with go_bind h k Q F S :=
  lazymatch h with
  | token => apply step_token; go
  | cur_span => apply step_span; go
  | dialect_ => eapply step_dialect; [eassumption|]; go
  | perf OArguments => eapply step_arguments; [eassumption|]; go
  | perf OListHack => eapply step_listhack; [eassumption|]; go
  | perf OPermit => apply step_permit; go
  | perf ODelim => apply step_delim; go
  | Ret _ => change (wp (bind h k) Q F S) with (wp (k ltac:(match h with Ret ?a => exact a end)) Q F S); cbv beta; go
  | consume => first [ eapply consume0; [eassumption|live|] | eapply step_consume; [eassumption|] ]; intros; norm; go
  | consume_keyword _ => eapply step_kw; [eassumption|]; intros; norm; go
  | consume_keywords (_ :: _) => eapply step_kws; [eassumption|]; intros; norm; go
  | skip_keyword _ => eapply step_skip_kw; [eassumption|]; intros; norm; go
  | err _ _ => eapply err0; [eassumption|vsp|reflexivity|intros]; go
  | warn _ _ => eapply warn0; [eassumption|vsp|reflexivity|intros]; go
  | expected_error _ => eapply expected0; [eassumption|intros]; go
  | match ?x with _ => _ end => lazymatch type of h with prog span => destr x; norm; go | _ => go_inl Q end
  | bind _ _ => lazymatch type of h with prog span => apply bind_bind; go | _ => go_inl Q end
  | _ => eapply step0; [sspec|eassumption|bnd|intro_step]; go
  end
with go_inl Q :=
  let b := bof Q in
  first [ eapply (step0_inl _ _ _ b 0 d1 gW); [eassumption | solve [let C := fresh "C" in intros C; go] | ]
        | eapply (step0_inl _ _ _ b 0 d0 gW); [eassumption | try solve [let C := fresh "C" in intros C; go] | ] ];
  [.. | intro_step; go].
Ltac start := let S := fresh "S" in let Hw := fresh "Hw" in let Hm := fresh "Hm" in
  intros S Hw Hm; let C := fresh "C" in pose proof (cx_refl _ Hw) as C.
Ltac auto_spec := start; go.
(** Specification of a function that is called with a token other than the end. *)
Definition lspec {V : env} {T} {I : Atoms T} (b : bool) (N : nat) (i : nat) (d e g : T -> nat) (p : prog T) : Prop :=
  forall S, wf S -> m S < N -> is_eof (tk S) = false -> wp p (post S b i d e g) (fpost S) S.
Lemma lspec_of {V : env} T (I : Atoms T) b N i d e g (p : prog T) : spec b N i d e g p -> lspec b N i d e g p.
Proof. intros H S Hw Hm _. now apply H. Qed.
Ltac lstart := let S := fresh "S" in let Hw := fresh "Hw" in let Hm := fresh "Hm" in let Hl := fresh "Hl" in
  intros S Hw Hm Hl; let C := fresh "C" in pose proof (cx_refl _ Hw) as C.

#[export] Hint Resolve consume_keyword_spec consume_keywords_spec skip_keyword_spec consume_plain_identifier_spec : spec.
#[export] Hint Extern 1 (wspan _ _) => vsp : spec.
#[export] Hint Extern 1 (spec _ _ _ _ _ _ (consume_token _)) => (apply consume_token_spec; reflexivity) : spec.
#[export] Hint Extern 1 (spec _ _ _ _ _ _ (skip_token _)) => (apply skip_token_spec; reflexivity) : spec.

Section Combinators.
Context {V : env}.
Lemma loop0_spec X T (IX : Atoms X) (IT : Atoms T) b N n (body : X -> prog (X + T)) x :
  (forall x, Forall (ok b) (atoms x) -> spec b N (gW x) (dsum 0) d0 gW (body x)) ->
  N <= n -> Forall (ok b) (atoms x) -> spec b N (gW x) d0 d0 gW (loop n body x).
Proof. intros. eapply (loop_spec X T IX IT b N 0); auto. Qed.

(** Strings. *)
Lemma string_token_literal t v w : string_token t = Some v -> tok_text t w -> string_literal v w /\ w <> [].
Proof.
  intros E T. destruct t; try discriminate E; injection E as <-; destruct T as [-> T]; (split; [|discriminate]).
  - exists 39%N, t. split; [now left|]. split; [reflexivity|]. split; [exact T|]. intros t' -> _. apply PropsBasic.C14_decode_single.
  - exists 34%N, t. split; [now right|]. split; [reflexivity|]. split; [exact T|]. intros t' -> H. destruct (H eq_refl).
    now apply PropsBasic.C15_plain_partial.
Qed.
Definition strat (v : text) (s : span) : Prop := exists w, w <> [] /\ wat_span src s w /\ string_literals v w.
Lemma tseg_string S a S' v : tseg S a S' -> string_token (tk S) = Some v -> strat v a.
Proof.
  intros [(_ & w & A & T) _ _] E. destruct (string_token_literal _ _ _ E T) as [L N]. exists w. split; [exact N|]. split; [exact A|]. now apply sl_one.
Qed.
Lemma strat_leaf v s : strat v s -> leaf_at (LStr v) s.
Proof. intros (w & _ & A & L). exists w. split; [exact A|]. now left. Qed.
Lemma strat_join v a S b S' v' : strat v a -> gap_at src (snd a) (fst (sp S)) -> tseg S b S' -> string_token (tk S) = Some v' ->
  strat (v ++ v') (join a b) /\ snd (join a b) = snd b.
Proof.
  intros (w & N & A & L) G HS E. pose proof HS as [(_ & w' & A' & T) F' _]. destruct (string_token_literal _ _ _ E T) as [L' N'].
  rewrite <- F' in G. destruct (at_app _ _ _ _ A A' N' G) as (g & Tg & At).
  assert (J : join a b = (fst a, snd b)).
  { pose proof (proj1 (proj1 (wat_wspan _ _ _ A))). pose proof (proj1 (proj1 (wat_wspan _ _ _ A'))). apply gap_at_le in G. unfold join. f_equal; lia. }
  rewrite J. split; [|reflexivity]. exists (w ++ g ++ w'). split; [destruct w; [congruence|discriminate]|]. split; [exact At|]. now apply sl_more.
Qed.
Lemma consume_string_loop S0 n : forall x y S, cx S0 S -> m S + 1 <= m S0 -> AA S0 <= AA S -> m S < n ->
  wspan src y -> strat x y -> gap_at src (snd y) (fst (sp S)) ->
  wp (loop n (fun ab : text * span =>
                t <- token ;;
                match string_token t with
                | Some v => s <- consume ;; Ret (inl (fst ab ++ v, join (snd ab) s))
                | None => Ret (inr (mkSString (fst ab) (snd ab)))
                end) (x, y)) (post S0 false 0 d1 d0 gW) (fpost S0) S.
Proof.
  induction n as [|n IH]; intros x y S C M A L Hv Hs G; [lia|]. cbn [loop]. apply bind_bind, step_token.
  destruct (string_token (tk S)) as [v|] eqn:Et.
  - apply bind_bind. eapply step_consume_seg; [exact C|now apply string_token_live in Et|]. intros S1 s C1 M1 A1 V1 G1.
    change (wp (loop n (fun ab : text * span =>
                t <- token ;;
                match string_token t with
                | Some v => s <- consume ;; Ret (inl (fst ab ++ v, join (snd ab) s))
                | None => Ret (inr (mkSString (fst ab) (snd ab)))
                end) (x ++ v, join y s)) (post S0 false 0 d1 d0 gW) (fpost S0) S1).
    destruct (strat_join _ _ _ _ _ _ Hs G G1 Et) as [Hs' E']. apply IH; auto; try lia; [now apply wspan_join|]. rewrite E'. apply G1.
  - apply wp_ret. apply post0; [assumption|unfold d1; lia|rewrite gW_sstring; lia|]. apply ok_ss; [exact Hv|now apply strat_leaf].
Qed.
Lemma consume_string_spec n : spec false n 0 d1 d0 gW (consume_string n).
Proof.
  start. unfold consume_string. apply step_token. destruct (string_token (tk S)) eqn:Et; [|go].
  eapply step_consume_seg; [exact C|now apply string_token_live in Et|]. intros S1 s C1 M1 A1 V1 G1.
  apply consume_string_loop; auto; try lia; [eapply tseg_string; eauto|apply G1].
Qed.
(** Numbers. *)
Lemma int_leaf S v n : wf S -> tk S = TInteger v -> dec_value v = n \/ (n = 0%N /\ (2 ^ 32 <= dec_value v)%N) -> leaf_at (LInt n) (sp S).
Proof.
  intros Hw E H. destruct (w_tok _ _ Hw) as (_ & w & At & T). rewrite E in T. destruct T as (-> & _ & T). exists v. split; [exact At|].
  left. split; auto.
Qed.
Lemma consume_int_spec N mx : (u32_max <= mx)%N -> spec false N 0 d1 d0 gW (consume_int mx).
Proof.
  intros Hmx. unfold consume_int. start. apply step_token. destruct (tk S) eqn:Et; try solve [go].
  destruct (digits_value t <=? mx)%N eqn:El.
  - assert (HL : leaf_at (LInt (digits_value t)) (sp S)) by (eapply int_leaf; eauto).
    change (wp (bind consume (fun s => Ret (digits_value t, s))) (post S false 0 d1 d0 gW) (fpost S) S).
    eapply step_consume; [exact C|]. intros S1 C1 _ M1 A1 _. rewrite Et in M1. cbn [is_eof negb b2n] in M1. apply wp_ret.
    apply post0; [assumption|unfold d1; lia|rewrite gW_Nspan; lia|].
    apply ok_int; [apply wf_wspan, Hw|exact HL].
  - assert (HL : leaf_at (LInt 0) (sp S)).
    { eapply int_leaf; eauto. right. split; [reflexivity|]. apply N.leb_gt in El. change (dec_value t) with (digits_value t). unfold u32_max in Hmx. lia. }
    apply bind_bind, step_span, bind_bind. eapply step_err; [eassumption|vsp|reflexivity|]. intros S2 C2 _ M2 _ A2 T2 P2.
    change (wp (bind consume (fun s => Ret (0%N, s))) (post S false 0 d1 d0 gW) (fpost S) S2).
    eapply step_consume; [exact C2|]. intros S1 C1 _ M1 A1 _. rewrite T2, Et in M1. cbn [is_eof negb b2n] in M1. apply wp_ret.
    apply post0; [assumption|unfold d1; lia|rewrite gW_Nspan; lia|]. rewrite P2. apply ok_int; [apply wf_wspan, Hw|exact HL].
Qed.
Lemma consume_float_spec N : spec false N 0 d1 d0 gW consume_float.
Proof. unfold consume_float. start. apply step_token. destr (tk S); go. Qed.

Lemma sep_list_spec T (I : Atoms T) b N n d (p : prog T) :
  spec b N 0 d d0 gW p -> N <= n -> spec b N 0 d0 d0 gW (sep_list n p).
Proof.
  intros Hp L. unfold sep_list. change 0 with (@gW V (list T) _ []). eapply loop0_spec; auto; [|constructor].
  intros l Hl. start. go.
Qed.
Lemma sep_list_recovered_spec T (I : Atoms T) b N n d name (p : prog T) :
  spec b N 0 d d0 gW p -> N <= n -> spec b N 0 d0 d0 gW (sep_list_recovered n name p).
Proof.
  intros Hp L. unfold sep_list_recovered. apply recovered_acc_spec. change 0 with (@gW V (list T) _ []).
  eapply loop_acc_spec; auto; [|constructor].
  intros l Hl. start. eapply step0; [exact Hp|eassumption|bnd|intro_step].
  eapply step0; [sspec|eassumption|bnd|intro_step]. apply wp_ret. destruct a0; norm.
  - split; [assumption|]. cbn [dctl ectl snd]. pose proof (c_nerr _ _ C1). repeat split; [lia|lia|gwx; gwl|okg].
  - split; [assumption|]. cbn [dctl ectl snd]. pose proof (c_nerr _ _ C1). repeat split; [lia|lia|gwx; gwl|okg].
Qed.
Lemma recovered_opt_spec T (I : Atoms T) b N d name e (p : prog T) :
  spec b N 0 d d0 gW p -> spec b N 0 d0 d0 gopt (recovered None name e (a <- p ;; Ret (Some a))).
Proof.
  intros Hp. eapply recovered_spec with (e0 := d0); [|cbn; lia|intros; constructor].
  start. eapply step0; [exact Hp|eassumption|bnd|intro_step]. apply wp_ret. apply post0; [assumption|unfold d0; lia|cbn [gopt]; lia|okg].
Qed.
(** The body of a [recovered(..)] that wraps its result in [Some]. *)
Lemma recovered_gopt T (I : Atoms T) b N name e (p : prog (option T)) :
  spec b N 0 d0 d0 gopt p -> spec b N 0 d0 d0 gopt (recovered None name e p).
Proof. intros Hp. eapply recovered_spec with (e0 := d0); [exact Hp|cbn; lia|intros; constructor]. Qed.
Lemma gopt_le T (I : Atoms T) (a : option T) : gW a <= gopt a.
Proof. destruct a; cbn [gopt]; [now rewrite gW_some|rewrite gW_none; lia]. Qed.
Lemma recovered_list_spec T (I : Atoms T) b N n d (p : prog T) :
  spec b N 0 d d0 gW p -> N <= n -> spec b N 0 d0 d0 gW (recovered_list n p).
Proof.
  intros Hp L. unfold recovered_list. change 0 with (@gW V (list T) _ []). eapply loop0_spec; auto; [|constructor].
  intros l Hl. start. eapply step0; [eapply recovered_opt_spec, Hp|eassumption|bnd|intro_step].
  pose proof (gopt_le _ _ a). destruct a; norm; go.
Qed.
Lemma recovered_list2_spec T (I : Atoms T) b N n d (p : prog T) :
  spec b N 0 d d0 gW p -> N <= n -> spec b N 0 d0 d0 gW (recovered_list2 n p).
Proof.
  intros Hp L. unfold recovered_list2. change 0 with (@gW V (list T) _ []). eapply loop0_spec; auto; [|constructor].
  intros l Hl. start. eapply step0; [eapply recovered_opt_spec, Hp|eassumption|bnd|intro_step].
  pose proof (gopt_le _ _ a). destruct a; norm; go.
Qed.
End Combinators.
#[export] Hint Resolve consume_string_spec consume_float_spec : spec.
#[export] Hint Extern 1 (spec _ _ _ _ _ _ (consume_int _)) => (apply consume_int_spec; vm_compute; discriminate) : spec.
#[export] Hint Extern 1 (spec _ _ _ _ _ _ (sep_list _ _)) => (eapply sep_list_spec; [sspec|ntac]) : spec.
#[export] Hint Extern 1 (spec _ _ _ _ _ _ (sep_list_recovered _ _ _)) => (eapply sep_list_recovered_spec; [sspec|ntac]) : spec.
#[export] Hint Extern 1 (spec _ _ _ _ _ _ (recovered_list _ _)) => (eapply recovered_list_spec; [sspec|ntac]) : spec.
#[export] Hint Extern 1 (spec _ _ _ _ _ _ (recovered_list2 _ _)) => (eapply recovered_list2_spec; [sspec|ntac]) : spec.
(** A loop starting from the empty list. *)
Lemma loop_nil_spec {V : env} X T (IX : Atoms X) (IT : Atoms T) b N n (body : list X -> prog (list X + T)) :
  (forall x, Forall (ok b) (atoms x) -> spec b N (gW x) (dsum 0) d0 gW (body x)) ->
  N <= n -> spec b N 0 d0 d0 gW (loop n body []).
Proof. intros. change 0 with (@gW V (list X) _ []). eapply loop0_spec; eauto. constructor. Qed.
Lemma spec_d0 {V : env} T (I : Atoms T) b N i d e g (p : prog T) : spec b N i d e g p -> spec b N i d0 e g p.
Proof.
  intros H S Hw Hm. eapply wp_conseq; [apply H; auto| |auto]. intros a S' (H1 & H2 & H3 & H4 & H5).
  split; [exact H1|]. unfold d0. repeat split; auto. lia.
Qed.
Section At.
Context {V : env}.
(** [consume_keyword] returns the span of the current token. *)
Lemma consume_keyword_at k S : wf S ->
  wp (consume_keyword k) (fun a S' => post S false 0 d1 d0 gW a S' /\ a = sp S) (fpost S) S.
Proof.
  intros Hw. apply step_token. destruct (tk S) eqn:Et; try (apply wp_expected_failure; now apply cx_refl).
  destruct (kw_eqb k0 (KW k)) eqn:Ek; [|apply wp_expected_failure; now apply cx_refl].
  apply step_span. eapply step_lint_caps; [now apply cx_refl|eapply wf_keyword; [exact Hw|exact Et|eauto]|]. intros S' C _ M1 N1 A1 T1 P1.
  change consume with (bind consume Ret). eapply step_consume; [exact C|]. intros S2 C2 _ M2 A2 _.
  rewrite T1, Et in M2. cbn in M2. apply wp_ret. split; [|exact P1]. rewrite P1.
  apply post0; auto; [unfold d1; lia|rewrite gW_span; lia|apply ok_span, wf_wspan, Hw].
Qed.
(** From the start of one keyword to the end of a later one. *)
Lemma keyword_pair U k1 k2 (f : span -> span -> prog U) Q E S : cx E S ->
  (forall S' a b, cx E S' -> m S' + 1 <= m S -> AA S <= AA S' -> wspan src a -> wspan src b ->
     wspan src (sp_start a, sp_end b) -> wp (f a b) Q (fpost E) S') ->
  wp (a <- consume_keyword k1 ;; b <- consume_keyword k2 ;; f a b) Q (fpost E) S.
Proof.
  intros C H. pose proof (cx_wf _ _ C) as Hw. apply wp_bind. eapply wp_conseq; [now apply consume_keyword_at| |intros S'; now apply fpost_trans].
  intros a S1 [(C1 & M1 & _ & A1 & O1) ->]. assert (C1' : cx E S1) by (eapply cx_trans; eauto).
  apply wp_bind. eapply wp_conseq; [apply consume_keyword_at, C1| |intros S'; now apply fpost_trans].
  intros b S2 [(C2 & M2 & _ & A2 & O2) ->]. unfold d1 in *. apply span_ok in O1, O2. pose proof (c_pos _ _ C1) as P.
  apply H; auto; try lia; [eapply cx_trans; eauto|].
  destruct O1 as [(L1 & B1 & B2) I1], O2 as [(L2 & B3 & B4) I2]. unfold sp_start, sp_end. split; [repeat split; cbn [fst snd]; auto; lia|].
  unfold inside, finally in *. destruct fin_issues; [|auto]. cbn [fst snd]. split; [apply I2|apply I1].
Qed.
Lemma kw_word k S : wf S -> is_kw (tk S) k = true -> has_word src k.
Proof.
  intros Hw H. pose proof (w_tok _ _ Hw) as (_ & w & [(pre & post & E & _) _] & T). apply is_kw_inv in H as [v H]. rewrite H in T. cbn in T.
  destruct T as (-> & _ & K). destruct (kw_of_text_cases (upper v)) as [X|(s & X1 & _ & X2)]; [congruence|].
  rewrite X1 in K. injection K as <-. exists pre, v, post. auto.
Qed.
(** [consume_keyword] succeeds only if the word occurs. *)
Lemma consume_keyword_word U N k (f : span -> prog U) Q E S : cx E S -> m S < N ->
  (forall a S', cx E S' -> m S' + 1 <= m S -> AA S + gW a <= AA S' + 0 -> Forall (ok false) (atoms a) -> has_word src k ->
     wp (f a) Q (fpost E) S') ->
  wp (bind (consume_keyword k) f) Q (fpost E) S.
Proof.
  intros C L H. destruct (is_kw (tk S) k) eqn:Ek.
  - pose proof (kw_word _ _ (c_wf _ _ C) Ek). eapply step0; [apply (consume_keyword_spec N)|exact C|exact L|]. intros a S' X1 X2 X3 X4. now apply H.
  - apply wp_bind. unfold consume_keyword. apply step_token. destruct (tk S); try (now apply wp_expected_failure).
    cbn in Ek. rewrite Ek. now apply wp_expected_failure.
Qed.
End At.
