(** Tokens emitted by hooks are checked: an invariant of the log. *)
From Coq Require Import ZArith List Bool Lia Arith.
From Verif Require Import Base BaseProofs Grammar Rules RulesSpec Prop_Rules Parser ParserSpec ParserProofs ParserStream ParserErr ParserEmitSpec.
From Verif Require Lexer.
Import ListNotations.
Open Scope Z_scope.

Section P.
Context {Tok Src W E Inst R : Type}.
Variable c : config Tok Src W E Inst R.
Notation g := (cGrammar c).
Notation pstate := (pstate Tok Src W E Inst R).
Notation event := (event Tok E Inst R).
Notation res := (res Tok Src W E Inst R).
Notation ck s := (checked c (pLog s)).
Definition errs {A} (m : res A) : Prop := match m with Done _ s | NoFuel s | Fail _ s => ck s | Panic => True end.
Lemma valid_is tt : isValidType c tt = true <-> known c tt.
Proof.
  unfold isValidType, known, LowestTokenType, Lexer.LowestTokenType, Lexer.EofTokenType, Lexer.EoiTokenType, AnyToken. rewrite !andb_true_iff, Z.leb_le, Z.ltb_lt, negb_true_iff, Z.eqb_neq. pose proof (zlen_nonneg (gTokens g)). lia.
Qed.
Lemma errs_bind {A B} (m : res A) (k : A -> pstate -> res B) : errs m -> (forall a s, ck s -> errs (k a s)) -> errs (bind m k).
Proof. destruct m; cbn; auto. Qed.
Definition neutral (ev : event) : Prop := match ev with EvDecide _ _ _ _ | EvWrong _ => False | _ => True end.
Lemma nb_log ev (s : pstate) : neutral ev -> ck s -> ck (log ev s).
Proof. intros H HS. cbn. destruct ev; cbn in H; try contradiction; constructor; auto; intros; discriminate. Qed.
Lemma errs_ret e (s : pstate) : ck s -> errs (ret e s).
Proof. intros H. destruct e; cbn; [apply (nb_log (EvFail e)); cbn; auto|exact H]. Qed.
Lemma errs_nret e (s : pstate) : ck s -> errs (nret e s).
Proof. intros H. destruct e; cbn; [apply (nb_log (EvNodeFail e)); cbn; auto|exact H]. Qed.
Lemma errs_checkCtx s : ck s -> errs (checkCtx c s).
Proof. intros H. unfold checkCtx. destruct (cCtx c (pWorld s)). apply errs_ret. apply nb_log; cbn; auto. Qed.
Lemma handleToken_ck t layer hooks s : ck s ->
  match handleToken c t layer hooks s with
  | Done (_, extra) s' => (extra = [] /\ ck s') \/ exists l tok emit, pLog s' = EvDecide layer tok emit extra :: l /\ checked c l
  | Fail _ s' | NoFuel s' => ck s'
  | Panic => True
  end.
Proof.
  intros H. unfold handleToken. destruct t as [t|]; [|left; auto]. pose proof (errs_checkCtx s H) as HC. destruct (checkCtx c s) as [u s1|e s1| |s1]; cbn [bind]; [|exact HC|exact I|exact HC]. cbn in HC.
  destruct (hookFor c hooks t) as [[hook|]|]; [|right; exists (pLog s1), t, true; auto|exact I].
  destruct (runHook c _ _ _ _) as [[tc w] [[emit extra] e]]. destruct e as [e|]; cbn; [constructor; auto; discriminate|]. right. do 3 eexists. split; [reflexivity|exact HC].
Qed.
Lemma appendExtra_ck layer l tok emit : forall extra before s, pLog s = EvDecide layer tok emit (before ++ extra) :: l -> checked c l -> Forall (fun t => known c (cType c t)) before -> errs (appendExtra c layer extra s).
Proof.
  induction extra as [|t r IH]; intros before s HL HC HB; cbn [appendExtra].
  - cbn. rewrite HL, app_nil_r. apply ck_good; auto.
  - destruct (isValidType c (cType c t)) eqn:V; cbn [negb].
    + apply (IH (before ++ [t])); [cbn; rewrite HL, <- app_assoc; reflexivity|exact HC|]. apply Forall_app. split; [exact HB|]. constructor; [apply valid_is, V|constructor].
    + cbn. rewrite HL. apply ck_wrong; auto. intros K. apply valid_is in K. congruence.
Qed.
Lemma errs_pullToken fuel types : forall hs layer s, ck s -> errs (pullToken c fuel types hs layer s).
Proof.
  induction hs as [|hooks hs IH]; intros layer s H; cbn [pullToken].
  - destruct (fetchToken c types _) as [src [t e]]. apply errs_bind; [apply errs_ret; auto|]. intros. apply nb_log; cbn; auto.
  - destruct (nth layer (pQueues s) []); [|apply nb_log; cbn; auto].
    set (pull := pullToken c fuel types hs (S layer)) in *. assert (HP : forall s, ck s -> errs (pull s)) by (intros; apply IH; auto). clearbody pull.
    generalize fuel at 1. intros f. revert s H. induction f as [|f IHf]; intros s H; cbn [pullLoop]; [exact H|].
    apply errs_bind; [apply HP; auto|]. intros t s1 H1. pose proof (handleToken_ck t layer hooks s1 H1) as HT. destruct (handleToken c t layer hooks s1) as [[emit extra] s2|e s2| |s2]; cbn [bind]; [|exact HT|exact I|exact HT].
    apply errs_bind; [destruct HT as [(-> & HT)|(l & tok & em & E1 & E2)]; [exact HT|apply (appendExtra_ck layer l tok em extra [] s2 E1 E2); constructor]|]. intros _ s3 H3. destruct emit; [apply nb_log; cbn; auto|].
    destruct (nth layer (pQueues s3) []); [apply IHf; auto|apply nb_log; cbn; auto].
Qed.
Lemma errs_nextToken fuel types s : ck s -> errs (nextToken c fuel types s).
Proof.
  intros H. unfold nextToken. destruct (pTokens s); [|exact H]. revert s H. induction fuel as [|f IH]; intros s H; cbn [nextLoop]; [exact H|].
  apply errs_bind; [apply errs_pullToken; auto|]. intros t s1 H1. destruct (_ && _); [exact H1|apply IH; auto].
Qed.
Lemma errs_newNodes : forall hooks layer node t s, ck s -> errs (newNodes c layer hooks node t s).
Proof.
  induction hooks as [|[i|] r IH]; intros; cbn [newNodes]; [auto| |auto]. destruct (mNewNode _ _ _ _ _).
  apply errs_bind; [apply errs_nret; apply nb_log; cbn; auto|auto].
Qed.
Lemma errs_handleTokens : forall hooks layer t s, ck s -> errs (handleTokens c layer hooks t s).
Proof.
  induction hooks as [|[i|] r IH]; intros; cbn [handleTokens]; [auto| |auto]. destruct (mHandleToken _ _ _ _).
  apply errs_bind; [apply errs_nret; apply nb_log; cbn; auto|auto].
Qed.
Lemma errs_endNodes : forall hooks layer s, ck s -> errs (endNodes c layer hooks s).
Proof.
  induction hooks as [|[i|] r IH]; intros layer s H; cbn [endNodes]; [auto| |].
  - destruct (mEndNode _ _ _) as [w [x e]]. apply errs_bind; [apply errs_nret; apply nb_log; cbn; auto|]. intros _ s1 H1.
    apply errs_bind; [apply IH; destruct (_ && _); auto|]. intros; auto.
  - apply errs_bind; [apply IH; auto|]. intros; auto.
Qed.
Lemma errs_handleNodes : forall hooks layer node results s, ck s -> errs (handleNodes c layer hooks node results s).
Proof.
  induction hooks as [|[i|] r IH]; intros layer node results s H; cbn [handleNodes]; [auto| |auto].
  destruct results as [|x xs]; [exact I|]. destruct (mHandleNode _ _ _ _ _). apply errs_bind; [apply errs_nret; apply nb_log; cbn; auto|auto].
Qed.
Lemma errs_newHooks : forall tables layer node t (s : pstate), ck s -> errs (newHooks layer tables node t s).
Proof.
  induction tables as [|table r IH]; intros layer node t s H; cbn [newHooks]; [auto|].
  apply errs_bind; [|intros; apply errs_bind; [apply IH; auto|intros; auto]].
  unfold getNodeHook. destruct (zget table (node + 1)) as [h|]; [|exact I]. destruct (zget table 0) as [any|]; [|exact I].
  destruct (match h with Some _ => h | None => any end) as [h'|]; [|exact H]. destruct (h' _ _ _) as [w [i e]].
  apply errs_bind; [apply errs_nret; apply nb_log; cbn; auto|intros; auto].
Qed.
Lemma errs_handleTokenList hooks : forall ts s, ck s -> errs (handleTokenList c hooks ts s).
Proof. induction ts; intros s H; cbn [handleTokenList]; [auto|]. apply errs_bind; [apply errs_handleTokens; auto|auto]. Qed.
Lemma errs_handleNodeSides s : ck s -> errs (handleNodeSides c s).
Proof. intros H. unfold handleNodeSides. destruct (pStack s); [exact H|]. apply errs_bind; [apply errs_handleTokenList; auto|intros; auto]. Qed.
Lemma errs_pushNode node t s : ck s -> errs (pushNode c node t s).
Proof.
  intros H. unfold pushNode. apply errs_bind; [apply errs_handleNodeSides; auto|]. intros _ s1 H1. destruct (zget (gNodes g) node) as [nt|]; [|exact I].
  apply errs_bind; [destruct (pStack s1); [auto|apply errs_newNodes; auto]|]. intros _ s2 H2.
  apply errs_bind; [apply errs_newHooks; auto|]. intros hooks s3 H3. destruct (zget (gStates g) (gnFirst nt)); [auto|exact I].
Qed.
Lemma errs_popLoop : forall stack sides s, ck s -> errs (popLoop c stack sides s).
Proof.
  induction stack as [|n rest IH]; intros sides s H; cbn [popLoop]; [auto|].
  destruct (negb _); [auto|]. apply errs_bind; [destruct rest; [apply errs_handleTokenList; auto|auto]|]. intros _ s1 H1.
  apply errs_bind; [apply errs_endNodes; auto|]. intros results s2 H2. destruct rest as [|p qq]; [auto|].
  apply errs_bind; [apply errs_handleNodes; auto|]. intros _ s3 H3. apply IH; auto.
Qed.
Lemma errs_applyRule t r s : ck s -> errs (applyRule c t r s).
Proof.
  intros H. unfold applyRule. destruct (pStack s) as [|n st]; [exact I|]. destruct (if rState r =? repeatState then _ else _) as [n'|]; [|exact I].
  apply errs_bind; [|intros _ s1 H1; apply errs_bind; [|intros; auto]].
  - destruct (negb _); [apply errs_pushNode; auto|]. destruct (_ || _); [|exact H]. unfold handleNodeToken. destruct t as [t|]; [|exact H].
    destruct (pStack (setTop s n')) as [|m qq]; [exact I|]. destruct (isSideToken (cType c) g (Some t)); [exact H|].
    apply errs_bind; [apply errs_handleNodeSides; auto|]. intros; apply errs_handleTokens; auto.
  - destruct (pStack s1) as [|m qq] eqn:ES; [exact I|]. destruct (nState m =? FinalState); [|exact H1]. unfold popNode. rewrite ES. apply errs_popLoop; auto.
Qed.

Lemma errs_lookLoop : forall fuel t tokens k s, ck s -> errs (lookLoop c fuel t tokens k s).
Proof.
  induction fuel as [|f IH]; intros t tokens k s H; cbn [lookLoop]; [exact H|].
  destruct (lookRound c (S f) t 0 (kNext k) _ (pLost s)) as [[[k1 lost]|]|]; [|exact I|exact H].
  set (fin := fun s2 : pstate => match match kNext k1 with b :: _ => Some b | [] => match kSuccess k1 with Some b => Some b | None => kError k1 end end with
      | None => Panic | Some b => match nth_error (kStore k1) b with Some br => Done (tokens ++ [t], bRules br) s2 | None => Panic end end).
  assert (FIN : forall s2, ck s2 -> errs (fin s2)).
  { intros s2 H2. unfold fin. destruct (match kNext k1 with b :: _ => Some b | [] => _ end) as [b|]; [|exact I]. destruct (nth_error (kStore k1) b); [exact H2|exact I]. }
  destruct (length (kNext k1) <=? 1)%nat; [exact (FIN (setLost s lost) H)|]. destruct (lookTypes (kStore k1) (kNext k1) =? 0); [exact (FIN (setLost s lost) H)|].
  pose proof (errs_nextToken (S f) (lookTypes (kStore k1) (kNext k1)) (setLost s lost) H) as HE.
  destruct (nextToken c (S f) _ (setLost s lost)) as [t2 s2|e2 s2| |s2]; [apply IH; exact HE|apply FIN, HE|exact I|exact HE].
Qed.
Lemma errs_nextRule fuel t st s : ck s -> errs (nextRule c fuel t st s).
Proof.
  intros H. unfold nextRule. destruct (pApplied s) as [|r rest]; [|exact H].
  destruct (findRules (cType c) (cText c) (cUpper c) g t st) as [[|r1 [|r2 rs]]|] eqn:EF; [exact H|exact H| |exact I].
  unfold resolveConflict. destruct (pStack s) as [|n ns]; [exact I|].
  match goal with |- errs (bind (lookLoop c fuel t [] ?k s) _) => pose proof (errs_lookLoop fuel t [] k s H) as HE; destruct (lookLoop c fuel t [] k s) as [[tokens rules] s1|e s1| |s1]; cbn [bind] end; [|exact HE|exact I|exact HE].
  destruct rules as [|r rest]; [exact I|exact HE].
Qed.
Lemma errs_parseLoop : forall fuel used t s, ck s -> errs (parseLoop c fuel used t s).
Proof.
  induction fuel as [|f IH]; intros used t s H; cbn [parseLoop]; [exact H|].
  destruct (pStack s) as [|n ns]; [exact H|]. destruct used.
  - apply errs_bind; [apply errs_checkCtx; auto|]. intros _ s1 H1.
    apply errs_bind; [apply errs_nextToken; auto|]. intros t2 s2 H2. apply IH. apply nb_log; cbn; auto.
  - destruct (zget (gStates g) (nState n)) as [st|]; [|exact I].
    apply errs_bind; [apply errs_nextRule; auto|]. intros [r|] s1 H1.
    + apply errs_bind; [apply errs_applyRule; auto|]. intros; apply IH; auto.
    + unfold syntaxError. apply errs_bind; [destruct t; [exact H1|apply errs_nextToken; auto]|].
      intros t2 s2 H2. destruct (getExpectedToken c st); [|exact I]. destruct t2 as [t2|]; [|exact I].
      exact H2.
Qed.
Lemma errs_restLoop : forall fuel s, ck s -> errs (restLoop c fuel s).
Proof.
  induction fuel as [|f IH]; intros s H; cbn [restLoop]; [exact H|].
  apply errs_bind; [apply errs_nextToken; auto|]. intros [t|] s1 H1; [|exact I].
  destruct (cType c t =? EoiTokenType); [apply nb_log; cbn; auto|]. destruct (isSideType g (cType c t)); [apply IH; apply nb_log; cbn; auto|].
  apply nb_log; cbn; auto.
Qed.
Lemma errs_parseFrom fuel w t0 : errs (parseFrom c fuel w t0).
Proof.
  unfold parseFrom, start. apply errs_bind; [apply errs_pushNode; constructor|]. intros _ s H.
  unfold parse. apply errs_bind; [apply errs_parseLoop; auto|]. intros [used t] s1 H1.
  destruct (if used then Some s1 else _) as [s2|] eqn:E2; [|exact I].
  assert (H2 : ck s2).
  { destruct used; [injection E2 as <-; auto|]. destruct t as [t|]; [|discriminate]. injection E2 as <-. destruct (_ =? _); auto. }
  apply errs_bind; [destruct (_ && _); [apply errs_restLoop; auto|exact H2]|]. intros; auto.
Qed.
End P.
