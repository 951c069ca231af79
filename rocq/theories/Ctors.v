(** The atoms of the constructors of [expr] and [stmt]. *)
From Verif Require Export SafeTac.
Local Open Scope list_scope.

Lemma at_EBinary op' op_span' lhs' rhs' : atoms (EBinary op' op_span' lhs' rhs') = [ALeaf (LBin op') op_span'] ++ ((((atoms op') ++ atoms op_span') ++ atoms lhs') ++ atoms rhs').
Proof. reflexivity. Qed.
#[export] Hint Rewrite at_EBinary : at_ex.
Lemma at_EUnary op' op_span' operand' : atoms (EUnary op' op_span' operand') = [ALeaf (LUn op') op_span'] ++ (((atoms op') ++ atoms op_span') ++ atoms operand').
Proof. reflexivity. Qed.
#[export] Hint Rewrite at_EUnary : at_ex.
Lemma at_ESubquery s' : atoms (ESubquery s') = atoms s'.
Proof. reflexivity. Qed.
#[export] Hint Rewrite at_ESubquery : at_ex.
Lemma at_ENull s' : atoms (ENull s') = [ALeaf LNull s'] ++ (atoms s').
Proof. reflexivity. Qed.
#[export] Hint Rewrite at_ENull : at_ex.
Lemma at_EBool b' s' : atoms (EBool b' s') = [ALeaf (LBool b') s'] ++ ((atoms b') ++ atoms s').
Proof. reflexivity. Qed.
#[export] Hint Rewrite at_EBool : at_ex.
Lemma at_EString s' : atoms (EString s') = atoms s'.
Proof. reflexivity. Qed.
#[export] Hint Rewrite at_EString : at_ex.
Lemma at_EInteger v' : atoms (EInteger v') = atoms v'.
Proof. reflexivity. Qed.
#[export] Hint Rewrite at_EInteger : at_ex.
Lemma at_EListHack a' : atoms (EListHack a') = atoms a'.
Proof. reflexivity. Qed.
#[export] Hint Rewrite at_EListHack : at_ex.
Lemma at_EFloat v' : atoms (EFloat v') = [ALeaf (LFloat (fst v')) (snd v')] ++ (atoms v').
Proof. reflexivity. Qed.
#[export] Hint Rewrite at_EFloat : at_ex.
Lemma at_EFunction f' args' s' : atoms (EFunction f' args' s') = [ALeaf (LFunc f') s'] ++ (((atoms f') ++ atoms args') ++ atoms s').
Proof. reflexivity. Qed.
#[export] Hint Rewrite at_EFunction : at_ex.
Lemma at_EWindowFunction f' args' function_span' over_span' order_by' : atoms (EWindowFunction f' args' function_span' over_span' order_by') = [ALeaf (LFunc f') function_span'] ++ (((((atoms f') ++ atoms args') ++ atoms function_span') ++ atoms over_span') ++ atoms order_by').
Proof. reflexivity. Qed.
#[export] Hint Rewrite at_EWindowFunction : at_ex.
Lemma at_EIdentifier parts' : atoms (EIdentifier parts') = atoms parts'.
Proof. reflexivity. Qed.
#[export] Hint Rewrite at_EIdentifier : at_ex.
Lemma at_EInterval interval_span' time_interval' unit' : atoms (EInterval interval_span' time_interval' unit') = ((atoms interval_span') ++ atoms time_interval') ++ atoms unit'.
Proof. reflexivity. Qed.
#[export] Hint Rewrite at_EInterval : at_ex.
Lemma at_EArg a' : atoms (EArg a') = atoms a'.
Proof. reflexivity. Qed.
#[export] Hint Rewrite at_EArg : at_ex.
Lemma at_EExists s' : atoms (EExists s') = atoms s'.
Proof. reflexivity. Qed.
#[export] Hint Rewrite at_EExists : at_ex.
Lemma at_EExtract extract_span' unit' from_span' date' : atoms (EExtract extract_span' unit' from_span' date') = (((atoms extract_span') ++ atoms unit') ++ atoms from_span') ++ atoms date'.
Proof. reflexivity. Qed.
#[export] Hint Rewrite at_EExtract : at_ex.
Lemma at_EIn lhs' rhs' in_span' not_in' : atoms (EIn lhs' rhs' in_span' not_in') = [ALeaf (LIn not_in') in_span'] ++ ((((atoms lhs') ++ atoms rhs') ++ atoms in_span') ++ atoms not_in').
Proof. reflexivity. Qed.
#[export] Hint Rewrite at_EIn : at_ex.
Lemma at_EIs e' i' s' : atoms (EIs e' i' s') = [ALeaf (LIs i') s'] ++ (((atoms e') ++ atoms i') ++ atoms s').
Proof. reflexivity. Qed.
#[export] Hint Rewrite at_EIs : at_ex.
Lemma at_EInvalid i' : atoms (EInvalid i') = atoms i'.
Proof. reflexivity. Qed.
#[export] Hint Rewrite at_EInvalid : at_ex.
Lemma at_ECase case_span' value' whens' else_' end_span' : atoms (ECase case_span' value' whens' else_' end_span') = ((((atoms case_span') ++ atoms value') ++ atoms whens') ++ atoms else_') ++ atoms end_span'.
Proof. reflexivity. Qed.
#[export] Hint Rewrite at_ECase : at_ex.
Lemma at_ECast cast_span' e' as_span' t' : atoms (ECast cast_span' e' as_span' t') = (((atoms cast_span') ++ atoms e') ++ atoms as_span') ++ atoms t'.
Proof. reflexivity. Qed.
#[export] Hint Rewrite at_ECast : at_ex.
Lemma at_ECount count_span' distinct' e' : atoms (ECount count_span' distinct' e') = ((atoms count_span') ++ atoms distinct') ++ atoms e'.
Proof. reflexivity. Qed.
#[export] Hint Rewrite at_ECount : at_ex.
Lemma at_EGroupConcat group_concat_span' distinct' e' : atoms (EGroupConcat group_concat_span' distinct' e') = ((atoms group_concat_span') ++ atoms distinct') ++ atoms e'.
Proof. reflexivity. Qed.
#[export] Hint Rewrite at_EGroupConcat : at_ex.
Lemma at_EVariable global' session' dot' v' variable_span' : atoms (EVariable global' session' dot' v' variable_span') = [ALeaf (LVar v') variable_span'] ++ (((((atoms global') ++ atoms session') ++ atoms dot') ++ atoms v') ++ atoms variable_span').
Proof. reflexivity. Qed.
#[export] Hint Rewrite at_EVariable : at_ex.
Lemma at_ETimestampAdd s' unit' interval' datetime' : atoms (ETimestampAdd s' unit' interval' datetime') = (((atoms s') ++ atoms unit') ++ atoms interval') ++ atoms datetime'.
Proof. reflexivity. Qed.
#[export] Hint Rewrite at_ETimestampAdd : at_ex.
Lemma at_ETimestampDiff s' unit' e1' e2' : atoms (ETimestampDiff s' unit' e1' e2') = (((atoms s') ++ atoms unit') ++ atoms e1') ++ atoms e2'.
Proof. reflexivity. Qed.
#[export] Hint Rewrite at_ETimestampDiff : at_ex.
Lemma at_SCreateIndex v' : atoms (SCreateIndex v') = atoms v'.
Proof. reflexivity. Qed.
#[export] Hint Rewrite at_SCreateIndex : at_ex.
Lemma at_SCreateTable v' : atoms (SCreateTable v') = atoms v'.
Proof. reflexivity. Qed.
#[export] Hint Rewrite at_SCreateTable : at_ex.
Lemma at_SCreateView v' : atoms (SCreateView v') = atoms v'.
Proof. reflexivity. Qed.
#[export] Hint Rewrite at_SCreateView : at_ex.
Lemma at_SCreateTrigger v' : atoms (SCreateTrigger v') = atoms v'.
Proof. reflexivity. Qed.
#[export] Hint Rewrite at_SCreateTrigger : at_ex.
Lemma at_SCreateFunction v' : atoms (SCreateFunction v') = atoms v'.
Proof. reflexivity. Qed.
#[export] Hint Rewrite at_SCreateFunction : at_ex.
Lemma at_SSelect v' : atoms (SSelect v') = atoms v'.
Proof. reflexivity. Qed.
#[export] Hint Rewrite at_SSelect : at_ex.
Lemma at_SDelete v' : atoms (SDelete v') = atoms v'.
Proof. reflexivity. Qed.
#[export] Hint Rewrite at_SDelete : at_ex.
Lemma at_SInsertReplace v' : atoms (SInsertReplace v') = atoms v'.
Proof. reflexivity. Qed.
#[export] Hint Rewrite at_SInsertReplace : at_ex.
Lemma at_SUpdate v' : atoms (SUpdate v') = atoms v'.
Proof. reflexivity. Qed.
#[export] Hint Rewrite at_SUpdate : at_ex.
Lemma at_SDropIndex v' : atoms (SDropIndex v') = atoms v'.
Proof. reflexivity. Qed.
#[export] Hint Rewrite at_SDropIndex : at_ex.
Lemma at_SDropTable v' : atoms (SDropTable v') = atoms v'.
Proof. reflexivity. Qed.
#[export] Hint Rewrite at_SDropTable : at_ex.
Lemma at_SDropFunction v' : atoms (SDropFunction v') = atoms v'.
Proof. reflexivity. Qed.
#[export] Hint Rewrite at_SDropFunction : at_ex.
Lemma at_SDropProcedure v' : atoms (SDropProcedure v') = atoms v'.
Proof. reflexivity. Qed.
#[export] Hint Rewrite at_SDropProcedure : at_ex.
Lemma at_SDropEvent v' : atoms (SDropEvent v') = atoms v'.
Proof. reflexivity. Qed.
#[export] Hint Rewrite at_SDropEvent : at_ex.
Lemma at_SDropDatabase v' : atoms (SDropDatabase v') = atoms v'.
Proof. reflexivity. Qed.
#[export] Hint Rewrite at_SDropDatabase : at_ex.
Lemma at_SDropServer v' : atoms (SDropServer v') = atoms v'.
Proof. reflexivity. Qed.
#[export] Hint Rewrite at_SDropServer : at_ex.
Lemma at_SDropTrigger v' : atoms (SDropTrigger v') = atoms v'.
Proof. reflexivity. Qed.
#[export] Hint Rewrite at_SDropTrigger : at_ex.
Lemma at_SDropView v' : atoms (SDropView v') = atoms v'.
Proof. reflexivity. Qed.
#[export] Hint Rewrite at_SDropView : at_ex.
Lemma at_SSet v' : atoms (SSet v') = atoms v'.
Proof. reflexivity. Qed.
#[export] Hint Rewrite at_SSet : at_ex.
Lemma at_SSignal v' : atoms (SSignal v') = atoms v'.
Proof. reflexivity. Qed.
#[export] Hint Rewrite at_SSignal : at_ex.
Lemma at_SAlterTable v' : atoms (SAlterTable v') = atoms v'.
Proof. reflexivity. Qed.
#[export] Hint Rewrite at_SAlterTable : at_ex.
Lemma at_SBlock l' : atoms (SBlock l') = atoms l'.
Proof. reflexivity. Qed.
#[export] Hint Rewrite at_SBlock : at_ex.
Lemma at_SBegin s' : atoms (SBegin s') = atoms s'.
Proof. reflexivity. Qed.
#[export] Hint Rewrite at_SBegin : at_ex.
Lemma at_SEnd s' : atoms (SEnd s') = atoms s'.
Proof. reflexivity. Qed.
#[export] Hint Rewrite at_SEnd : at_ex.
Lemma at_SCommit s' : atoms (SCommit s') = atoms s'.
Proof. reflexivity. Qed.
#[export] Hint Rewrite at_SCommit : at_ex.
Lemma at_SStartTransaction s' : atoms (SStartTransaction s') = atoms s'.
Proof. reflexivity. Qed.
#[export] Hint Rewrite at_SStartTransaction : at_ex.
Lemma at_SIf v' : atoms (SIf v') = atoms v'.
Proof. reflexivity. Qed.
#[export] Hint Rewrite at_SIf : at_ex.
Lemma at_SInvalid i' : atoms (SInvalid i') = atoms i'.
Proof. reflexivity. Qed.
#[export] Hint Rewrite at_SInvalid : at_ex.
Lemma at_SUnion v' : atoms (SUnion v') = atoms v'.
Proof. reflexivity. Qed.
#[export] Hint Rewrite at_SUnion : at_ex.
Lemma at_SCase v' : atoms (SCase v') = atoms v'.
Proof. reflexivity. Qed.
#[export] Hint Rewrite at_SCase : at_ex.
Lemma at_SCopy v' : atoms (SCopy v') = atoms v'.
Proof. reflexivity. Qed.
#[export] Hint Rewrite at_SCopy : at_ex.
Lemma at_SStdin d' : atoms (SStdin d') = atoms d'.
Proof. reflexivity. Qed.
#[export] Hint Rewrite at_SStdin : at_ex.
Lemma at_SCreateTypeEnum v' : atoms (SCreateTypeEnum v') = atoms v'.
Proof. reflexivity. Qed.
#[export] Hint Rewrite at_SCreateTypeEnum : at_ex.
Lemma at_SDo l' : atoms (SDo l') = atoms l'.
Proof. reflexivity. Qed.
#[export] Hint Rewrite at_SDo : at_ex.
Lemma at_STruncateTable v' : atoms (STruncateTable v') = atoms v'.
Proof. reflexivity. Qed.
#[export] Hint Rewrite at_STruncateTable : at_ex.
Lemma at_SRenameTable v' : atoms (SRenameTable v') = atoms v'.
Proof. reflexivity. Qed.
#[export] Hint Rewrite at_SRenameTable : at_ex.
Lemma at_SWithQuery v' : atoms (SWithQuery v') = atoms v'.
Proof. reflexivity. Qed.
#[export] Hint Rewrite at_SWithQuery : at_ex.
Lemma at_SReturn v' : atoms (SReturn v') = atoms v'.
Proof. reflexivity. Qed.
#[export] Hint Rewrite at_SReturn : at_ex.
Section Tref.
Context {AE : Atoms expr} {AS : Atoms stmt}.
Lemma at_TRTable (q : qname) s a h : atoms (@TRTable expr stmt q s a h) = atoms q ++ atoms s ++ atoms a ++ atoms h ++ used FIndexHint (spn h).
Proof. reflexivity. Qed.
Lemma at_TRQuery q s a : atoms (@TRQuery expr stmt q s a) = atoms q ++ atoms s ++ atoms a.
Proof. reflexivity. Qed.
Lemma at_TRJoin j l r' s : atoms (@TRJoin expr stmt j l r' s) = atoms j ++ atoms l ++ atoms r' ++ atoms s.
Proof. reflexivity. Qed.
End Tref.
#[export] Hint Rewrite @at_TRTable @at_TRQuery @at_TRJoin : at_ex.
