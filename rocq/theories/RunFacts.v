(** General facts about running programs. *)
From Verif Require Export Parser.
Local Open Scope list_scope.

Lemma run_bind A B (p : prog A) (k : A -> prog B) st :
  run (bind p k) st = match run p st with
                      | ROk a st' => run (k a) st' | RErr st' => RErr st' | RPanic w => RPanic w | RFuel => RFuel end.
Proof.
  revert st. induction p as [A a|A|A w|A|A X o f IH|A X p IHp f IH]; intros st; cbn [bind run]; auto.
  - destruct (exec o st); auto.
  - destruct (run p st); auto.
Qed.
Lemma run_perf X (o : op X) st :
  run (perf o) st = match exec o st with XOk x st' => ROk x st' | XPanic w => RPanic w | XFuel => RFuel end.
Proof. cbn. destruct (exec o st); reflexivity. Qed.
Lemma run_try A X (p : prog X) (k : option X -> prog A) st :
  run (Try p k) st = match run p st with
                     | ROk x st' => run (k (Some x)) st' | RErr st' => run (k None) st' | RPanic w => RPanic w | RFuel => RFuel end.
Proof. reflexivity. Qed.
Lemma run_token st : run token st = ROk (s_tok st) st. Proof. reflexivity. Qed.
Lemma run_span st : run cur_span st = ROk (s_span st) st. Proof. reflexivity. Qed.
Lemma run_consume st : run consume st = match p_next st with XOk _ st' => ROk (s_span st) st' | XPanic w => RPanic w | XFuel => RFuel end.
Proof. cbn. destruct (p_next st); reflexivity. Qed.
