(** Rules for programs that read the delimiter in force or whether compound statements are
    permitted. *)
From Verif Require Export TokRules.
Local Open Scope string_scope.
Local Open Scope list_scope.

(** ** Reading with a known delimiter, where compound statements are permitted or not *)
Definition reads (o : reading) (d : tok) (pm : bool) {A} (p : prog A) (ts : tks) (a : A) (ts' : tks) : Prop :=
  forall st, before o st ts -> s_opts st = o -> s_delim st = d -> s_permit st = pm ->
  exists st', run p st = ROk a st' /\ before o st' ts' /\ same st st'.
Section Rules.
Variables (o : reading) (d : tok) (pm : bool).
Notation reads := (reads o d pm).
Lemma rd_parses A (p : prog A) ts a ts' : parses o p ts a ts' -> reads p ts a ts'.
Proof. intros H st A1 O _ _. now apply H. Qed.
Lemma rd_bind A B (p : prog A) (k : A -> prog B) ts a ts1 b ts2 :
  reads p ts a ts1 -> reads (k a) ts1 b ts2 -> reads (bind p k) ts b ts2.
Proof.
  intros H1 H2 st H O D P. destruct (H1 st H O D P) as (st1 & E1 & A1 & S1).
  destruct (H2 st1 A1) as (st2 & E2 & A2 & S2); [now rewrite (sm_opts _ _ S1)|now rewrite (sm_delim _ _ S1)|now rewrite (sm_permit _ _ S1)|].
  exists st2. rewrite run_bind, E1. split; [exact E2|]. split; [exact A2|eapply same_trans; eauto].
Qed.
Lemma rd_try A B (p : prog A) (k : option A -> prog B) ts a ts1 b ts2 :
  reads p ts a ts1 -> reads (k (Some a)) ts1 b ts2 -> reads (Try p k) ts b ts2.
Proof.
  intros H1 H2 st H O D P. destruct (H1 st H O D P) as (st1 & E1 & A1 & S1).
  destruct (H2 st1 A1) as (st2 & E2 & A2 & S2); [now rewrite (sm_opts _ _ S1)|now rewrite (sm_delim _ _ S1)|now rewrite (sm_permit _ _ S1)|].
  exists st2. rewrite run_try, E1. split; [exact E2|]. split; [exact A2|eapply same_trans; eauto].
Qed.
Lemma rd_assoc A B C (p : prog A) (f : A -> prog B) (k : B -> prog C) ts c us :
  reads (x <- (y <- p ;; f y) ;; k x) ts c us -> reads (y <- p ;; x <- f y ;; k x) ts c us.
Proof.
  intros H st A0 O0 D0 P0. destruct (H st A0 O0 D0 P0) as (st' & E & Q). exists st'. split; [|exact Q].
  rewrite <- E. rewrite !run_bind. destruct (run p st) as [a st1| | |]; try reflexivity. now rewrite run_bind.
Qed.
Lemma rd_delim ts : reads (perf ODelim) ts d ts.
Proof. intros st A1 O D P. exists st. rewrite run_perf. cbn [exec]. rewrite D. split; [reflexivity|]. split; [exact A1|apply same_refl]. Qed.
Lemma rd_permit ts : reads (perf OPermit) ts pm ts.
Proof. intros st A1 O D P. exists st. rewrite run_perf. cbn [exec]. rewrite P. split; [reflexivity|]. split; [exact A1|apply same_refl]. Qed.
Lemma rd_ret A (a : A) ts : reads (Ret a) ts a ts.
Proof. apply rd_parses, pa_ret. Qed.
Lemma rd_token x ts : reads token (x :: ts) (fst x) (x :: ts).
Proof. apply rd_parses, pa_token. Qed.
Lemma rb_token us : us <> [] -> reads token us (hd_tok us) us.
Proof. intros. now apply rd_parses, pb_token. Qed.
Lemma rd_recovered_acc A (a : A) ex e p ts us : reads p ts (a, true) us -> us <> [] -> e (hd_tok us) = true ->
  reads (recovered_acc ex e p) ts a us.
Proof.
  intros R U E. eapply rd_bind; [exact R|]. cbn iota. eapply rd_bind; [apply rd_ret|]. eapply rd_bind; [|apply rd_ret].
  eapply rd_bind; [now apply rb_token|]. rewrite E. apply rd_ret.
Qed.
End Rules.
(** A part that is read with another delimiter, or where compound statements are permitted. *)
Lemma rd_with_delim o d d' pm A (p : prog A) ts a ts' : reads o d' pm p ts a ts' ->
  reads o d pm (old <- perf ODelim ;; perf (OSetDelim d') ;;; x <- p ;; perf (OSetDelim old) ;;; Ret x) ts a ts'.
Proof.
  intros R st A1 O D P. rewrite run_bind, run_perf. cbn [exec]. rewrite run_bind, run_perf. cbn [exec]. rewrite run_bind.
  match goal with |- context[run p ?y] => destruct (R y) as (st1 & E & A2 & S); [exact A1|exact O|reflexivity|exact P|] end.
  rewrite E, run_bind, run_perf. cbn [exec run]. eexists. split; [reflexivity|]. split; [exact A2|].
  destruct S. cbn in *. constructor; cbn; auto.
Qed.
Lemma rd_with_permit o d pm pm' A B C (p : prog A) (q : A -> prog B) (k : B -> prog C) ts b ts1 c ts2 :
  reads o d pm' (x <- p ;; q x) ts b ts1 -> reads o d pm (k b) ts1 c ts2 ->
  reads o d pm (old <- perf OPermit ;; perf (OSetPermit pm') ;;; x <- p ;; y <- q x ;; perf (OSetPermit old) ;;; k y) ts c ts2.
Proof.
  intros R R2 st A1 O D P. rewrite run_bind, run_perf. cbn [exec]. rewrite run_bind, run_perf. cbn [exec].
  match goal with |- context[run (x <- p ;; _) ?y] => destruct (R y) as (st1 & E & A2 & S); [exact A1|exact O|exact D|reflexivity|] end.
  rewrite run_bind in E. rewrite run_bind. destruct (run p _) as [a st2| | |]; try discriminate. rewrite run_bind, E, run_bind, run_perf. cbn [exec run].
  destruct S. cbn in *. match goal with |- context[run (k b) ?x] => destruct (R2 x) as (st3 & E3 & A3 & S3); [exact A2|cbn; congruence|cbn; congruence|exact P|] end.
  exists st3. split; [exact E3|]. split; [exact A3|]. destruct S3. cbn in *. constructor; cbn; congruence.
Qed.
