(** Errors: the error returned is the last thing in the log and the only one. *)
From Coq Require Import ZArith List Bool Lia Arith.
From Verif Require Import Base BaseProofs Grammar Rules RulesSpec Prop_Rules Parser ParserSpec ParserProofs ParserStream.
Import ListNotations.
Open Scope Z_scope.

Section P.
Context {Tok Src W E Inst R : Type}.
Variable c : config Tok Src W E Inst R.
Notation g := (cGrammar c).
Notation pstate := (pstate Tok Src W E Inst R).
Notation event := (event Tok E Inst R).
Notation res := (res Tok Src W E Inst R).

Definition evErr (ev : event) : option (err Tok E) :=
  match ev with EvNodeFail e => Some (External e) | EvFail e => Some (External e) | EvWrong t => Some (EmitWrongToken t) | _ => None end.

(** Tokens made by the parser are not dropped by hook layers. *)
Definition decideOk (ev : event) : Prop :=
  match ev with EvDecide _ t emit extra => cType c t < 0 -> emit = true \/ exists l, extra = l ++ [t] | _ => True end.

(** [bad]: kinds of events to look for *)
Variable bad : event -> bool.
Variable q : Prop.
Hypothesis bad_ok : forall ev, failed ev = false -> decideOk ev -> bad ev = false.
Definition nbl (l : list event) : Prop := q -> forallb (fun ev => negb (bad ev)) l = true.
Notation nb s := (nbl (pLog s)).
Definition errs {A} (m : res A) : Prop :=
  match m with
  | Done _ s => nb s
  | NoFuel s => nb s
  | Fail e s => exists ev r, pLog s = ev :: r /\ evErr ev = Some e /\ nbl r
  | Panic => True
  end.
Lemma errs_bind {A B} (m : res A) (k : A -> pstate -> res B) : errs m -> (forall a s, nb s -> errs (k a s)) -> errs (bind m k).
Proof. destruct m; cbn; auto. Qed.
Lemma nb_log' ev (s : pstate) : failed ev = false -> decideOk ev -> nb s -> nb (log ev s).
Proof. intros H HD HS HQ. cbn. rewrite (HS HQ), (bad_ok ev H HD). auto. Qed.
Lemma nb_log ev (s : pstate) : failed ev = false -> (match ev with EvDecide _ _ _ _ => False | _ => True end) -> nb s -> nb (log ev s).
Proof. intros H HD. apply nb_log'; auto. destruct ev; try exact I. destruct HD. Qed.
Lemma errs_ret e (s : pstate) : nb s -> errs (ret e s).
Proof. intros H. destruct e; cbn; eauto. Qed.
Lemma errs_nret e (s : pstate) : nb s -> errs (nret e s).
Proof. intros H. destruct e; cbn; eauto. Qed.
Lemma errs_checkCtx s : nb s -> errs (checkCtx c s).
Proof. intros H. unfold checkCtx. destruct (cCtx c (pWorld s)). apply errs_ret. apply nb_log; auto. Qed.
Lemma errs_handleToken t layer hooks s : nb s -> errs (handleToken c t layer hooks s).
Proof.
  intros H. unfold handleToken. destruct t as [t|]; [|exact H]. apply errs_bind; [apply errs_checkCtx; auto|]. intros _ s1 H1.
  destruct (hookFor c hooks t) as [[hook|]|]; [|apply nb_log'; cbn; auto|exact I].
  destruct (runHook c _ _ _ _) as [[tc w] [[emit extra] e]]. apply errs_bind; [apply errs_ret; auto|]. intros. apply nb_log'; auto.
  cbn. intros HT. apply Z.ltb_lt in HT. rewrite HT. destruct emit; cbn; auto. destruct extra as [|x l]; cbn; auto. right. exists (x :: l). auto.
Qed.
Lemma errs_appendExtra layer : forall extra s, nb s -> errs (appendExtra c layer extra s).
Proof. induction extra as [|t r IH]; intros s H; cbn [appendExtra]; [exact H|]. destruct (isValidType c (cType c t)); cbn [negb]; auto. cbn. eauto. Qed.
Lemma errs_pullToken fuel types : forall hs layer s, nb s -> errs (pullToken c fuel types hs layer s).
Proof.
  induction hs as [|hooks hs IH]; intros layer s H; cbn [pullToken].
  - destruct (fetchToken c types _) as [src [t e]]. apply errs_bind; [apply errs_ret; auto|]. intros. apply nb_log; auto.
  - destruct (nth layer (pQueues s) []); [|apply nb_log; auto].
    set (pull := pullToken c fuel types hs (S layer)) in *. assert (HP : forall s, nb s -> errs (pull s)) by (intros; apply IH; auto). clearbody pull.
    generalize fuel at 1. intros f. revert s H. induction f as [|f IHf]; intros s H; cbn [pullLoop]; [exact H|].
    apply errs_bind; [apply HP; auto|]. intros t s1 H1. apply errs_bind; [apply errs_handleToken; auto|]. intros [emit extra] s2 H2.
    apply errs_bind; [apply errs_appendExtra; auto|]. intros _ s3 H3. destruct emit; [apply nb_log; auto|].
    destruct (nth layer (pQueues s3) []); [apply IHf; auto|apply nb_log; auto].
Qed.
Lemma errs_nextToken fuel types s : nb s -> errs (nextToken c fuel types s).
Proof.
  intros H. unfold nextToken. destruct (pTokens s); [|exact H]. revert s H. induction fuel as [|f IH]; intros s H; cbn [nextLoop]; [exact H|].
  apply errs_bind; [apply errs_pullToken; auto|]. intros t s1 H1. destruct (_ && _); [exact H1|apply IH; auto].
Qed.
Lemma errs_newNodes : forall hooks layer node t s, nb s -> errs (newNodes c layer hooks node t s).
Proof.
  induction hooks as [|[i|] r IH]; intros; cbn [newNodes]; [auto| |auto]. destruct (mNewNode _ _ _ _ _).
  apply errs_bind; [apply errs_nret; apply nb_log; auto|auto].
Qed.
Lemma errs_handleTokens : forall hooks layer t s, nb s -> errs (handleTokens c layer hooks t s).
Proof.
  induction hooks as [|[i|] r IH]; intros; cbn [handleTokens]; [auto| |auto]. destruct (mHandleToken _ _ _ _).
  apply errs_bind; [apply errs_nret; apply nb_log; auto|auto].
Qed.
Lemma errs_endNodes : forall hooks layer s, nb s -> errs (endNodes c layer hooks s).
Proof.
  induction hooks as [|[i|] r IH]; intros layer s H; cbn [endNodes]; [auto| |].
  - destruct (mEndNode _ _ _) as [w [x e]]. apply errs_bind; [apply errs_nret; apply nb_log; auto|]. intros _ s1 H1.
    apply errs_bind; [apply IH; destruct (_ && _); auto|]. intros; auto.
  - apply errs_bind; [apply IH; auto|]. intros; auto.
Qed.
Lemma errs_handleNodes : forall hooks layer node results s, nb s -> errs (handleNodes c layer hooks node results s).
Proof.
  induction hooks as [|[i|] r IH]; intros layer node results s H; cbn [handleNodes]; [auto| |auto].
  destruct results as [|x xs]; [exact I|]. destruct (mHandleNode _ _ _ _ _). apply errs_bind; [apply errs_nret; apply nb_log; auto|auto].
Qed.
Lemma errs_newHooks : forall tables layer node t (s : pstate), nb s -> errs (newHooks layer tables node t s).
Proof.
  induction tables as [|table r IH]; intros layer node t s H; cbn [newHooks]; [auto|].
  apply errs_bind; [|intros; apply errs_bind; [apply IH; auto|intros; auto]].
  unfold getNodeHook. destruct (zget table (node + 1)) as [h|]; [|exact I]. destruct (zget table 0) as [any|]; [|exact I].
  destruct (match h with Some _ => h | None => any end) as [h'|]; [|exact H]. destruct (h' _ _ _) as [w [i e]].
  apply errs_bind; [apply errs_nret; apply nb_log; auto|intros; auto].
Qed.
Lemma errs_handleTokenList hooks : forall ts s, nb s -> errs (handleTokenList c hooks ts s).
Proof. induction ts; intros s H; cbn [handleTokenList]; [auto|]. apply errs_bind; [apply errs_handleTokens; auto|auto]. Qed.
Lemma errs_handleNodeSides s : nb s -> errs (handleNodeSides c s).
Proof. intros H. unfold handleNodeSides. destruct (pStack s); [exact H|]. apply errs_bind; [apply errs_handleTokenList; auto|intros; auto]. Qed.
Lemma errs_pushNode node t s : nb s -> errs (pushNode c node t s).
Proof.
  intros H. unfold pushNode. apply errs_bind; [apply errs_handleNodeSides; auto|]. intros _ s1 H1. destruct (zget (gNodes g) node) as [nt|]; [|exact I].
  apply errs_bind; [destruct (pStack s1); [auto|apply errs_newNodes; auto]|]. intros _ s2 H2.
  apply errs_bind; [apply errs_newHooks; auto|]. intros hooks s3 H3. destruct (zget (gStates g) (gnFirst nt)); [auto|exact I].
Qed.
Lemma errs_popLoop : forall stack sides s, nb s -> errs (popLoop c stack sides s).
Proof.
  induction stack as [|n rest IH]; intros sides s H; cbn [popLoop]; [auto|].
  destruct (negb _); [auto|]. apply errs_bind; [destruct rest; [apply errs_handleTokenList; auto|auto]|]. intros _ s1 H1.
  apply errs_bind; [apply errs_endNodes; auto|]. intros results s2 H2. destruct rest as [|p qq]; [auto|].
  apply errs_bind; [apply errs_handleNodes; auto|]. intros _ s3 H3. apply IH; auto.
Qed.
Lemma errs_applyRule t r s : nb s -> errs (applyRule c t r s).
Proof.
  intros H. unfold applyRule. destruct (pStack s) as [|n st]; [exact I|]. destruct (if rState r =? repeatState then _ else _) as [n'|]; [|exact I].
  apply errs_bind; [|intros _ s1 H1; apply errs_bind; [|intros; auto]].
  - destruct (negb _); [apply errs_pushNode; auto|]. destruct (_ || _); [|exact H]. unfold handleNodeToken. destruct t as [t|]; [|exact H].
    destruct (pStack (setTop s n')) as [|m qq]; [exact I|]. destruct (isSideToken (cType c) g (Some t)); [exact H|].
    apply errs_bind; [apply errs_handleNodeSides; auto|]. intros; apply errs_handleTokens; auto.
  - destruct (pStack s1) as [|m qq] eqn:ES; [exact I|]. destruct (nState m =? FinalState); [|exact H1]. unfold popNode. rewrite ES. apply errs_popLoop; auto.
Qed.

(** *** Functions that only add stream events *)
Definition strE {A} (s : pstate) (m : res A) : Prop :=
  match m with Done _ s' | Fail _ s' | NoFuel s' => exists l, pLog s' = l ++ pLog s /\ forallb isStream l = true | Panic => True end.
Lemma strE_self {A} (s s' : pstate) (a : A) : pLog s' = pLog s -> strE s (Done a s').
Proof. intros H. exists []. auto. Qed.
Lemma strE_bind {A B} (s : pstate) (m : res A) (k : A -> pstate -> res B) : strE s m -> (forall a s', strE s' (k a s')) -> strE s (bind m k).
Proof.
  destruct m as [a s'|e s'| |s']; cbn; auto. intros (l & E1 & H1) HK. specialize (HK a s').
  destruct (k a s') as [b s2|e s2| |s2]; cbn in *; auto; destruct HK as (m & E2 & H2); exists (m ++ l); rewrite E2, E1, app_assoc, forallb_app, H1, H2; auto.
Qed.
Lemma strE_log {A} (s s' : pstate) (a : A) ev : pLog s' = ev :: pLog s -> isStream ev = true -> strE s (Done a s').
Proof. intros H HE. exists [ev]. cbn. rewrite HE. auto. Qed.
Lemma strE_ret e (s s' : pstate) : pLog s' = pLog s -> strE s (ret e s').
Proof. intros H. destruct e; cbn; [exists [EvFail e]; cbn; rewrite H; auto|exists []; auto]. Qed.
Lemma strE_handleToken t layer hooks s : strE s (handleToken c t layer hooks s).
Proof.
  unfold handleToken. destruct t as [t|]; [|apply strE_self; auto]. apply strE_bind.
  - unfold checkCtx. destruct (cCtx c (pWorld s)) as [w [e|]]; cbn; [exists [EvFail e; EvCheck]|exists [EvCheck]]; auto.
  - intros _ s1. destruct (hookFor c hooks t) as [[hook|]|]; [|eapply strE_log; [reflexivity|auto]|exact I].
    destruct (runHook c _ _ _ _) as [[tc w] [[emit extra] e]]. apply strE_bind; [apply strE_ret; auto|]. intros. eapply strE_log; [reflexivity|auto].
Qed.
Lemma strE_appendExtra layer : forall extra s, strE s (appendExtra c layer extra s).
Proof.
  induction extra as [|t r IH]; intros s; cbn [appendExtra]; [apply strE_self; auto|]. destruct (isValidType c (cType c t)); cbn [negb].
  - specialize (IH (setQueue s layer (nth layer (pQueues s) [] ++ [t]))). exact IH.
  - exists [EvWrong t]. auto.
Qed.
Lemma strE_pullToken fuel types : forall hs layer s, strE s (pullToken c fuel types hs layer s).
Proof.
  induction hs as [|hooks hs IH]; intros layer s; cbn [pullToken].
  - destruct (fetchToken c types _) as [src [t e]]. apply strE_bind; [apply strE_ret; auto|]. intros. eapply strE_log; [reflexivity|auto].
  - destruct (nth layer (pQueues s) []); [|eapply strE_log; [reflexivity|auto]].
    set (pull := pullToken c fuel types hs (S layer)) in *. assert (HP : forall s, strE s (pull s)) by (intros; apply IH; auto). clearbody pull.
    generalize fuel at 1. intros f. revert s. induction f as [|f IHf]; intros s; cbn [pullLoop]; [exists []; auto|].
    apply strE_bind; [apply HP; auto|]. intros t s1. apply strE_bind; [apply strE_handleToken; auto|]. intros [emit extra] s2.
    apply strE_bind; [apply strE_appendExtra; auto|]. intros _ s3. destruct emit; [eapply strE_log; [reflexivity|auto]|].
    destruct (nth layer (pQueues s3) []); [apply IHf; auto|eapply strE_log; [reflexivity|auto]].
Qed.
Lemma strE_nextToken fuel types s : strE s (nextToken c fuel types s).
Proof.
  unfold nextToken. destruct (pTokens s); [|apply strE_self; auto]. revert s. induction fuel as [|f IH]; intros s; cbn [nextLoop]; [exists []; auto|].
  apply strE_bind; [apply strE_pullToken; auto|]. intros t s1. destruct (_ && _); [apply strE_self; auto|apply IH; auto].
Qed.
Lemma strE_lookLoop : forall fuel t tokens k s, strE s (lookLoop c fuel t tokens k s).
Proof.
  induction fuel as [|f IH]; intros t tokens k s; cbn [lookLoop]; [exists []; auto|].
  destruct (lookRound c (S f) t 0 (kNext k) _ (pLost s)) as [[[k1 lost]|]|]; [|exact I|exists []; auto].
  set (fin := fun s2 : pstate => match match kNext k1 with b :: _ => Some b | [] => match kSuccess k1 with Some b => Some b | None => kError k1 end end with
      | None => Panic | Some b => match nth_error (kStore k1) b with Some br => Done (tokens ++ [t], bRules br) s2 | None => Panic end end).
  assert (FIN : forall s2, strE s2 (fin s2)).
  { intros s2. unfold fin. destruct (match kNext k1 with b :: _ => Some b | [] => _ end) as [b|]; [|exact I]. destruct (nth_error (kStore k1) b); [exists []; auto|exact I]. }
  destruct (length (kNext k1) <=? 1)%nat; [exact (FIN (setLost s lost))|]. destruct (lookTypes (kStore k1) (kNext k1) =? 0); [exact (FIN (setLost s lost))|].
  pose proof (strE_nextToken (S f) (lookTypes (kStore k1) (kNext k1)) (setLost s lost)) as H.
  destruct (nextToken c (S f) _ (setLost s lost)) as [t2 s2|e2 s2| |s2]; auto.
  - apply (strE_bind s (Done t2 s2) (fun t2 s2 => lookLoop c f t2 (tokens ++ [t]) k1 s2)); auto.
  - apply (strE_bind s (Done tt s2) (fun _ s2 => fin s2)); auto.
Qed.

(** *** Lookahead: errors are dropped there *)
Hypothesis look_ok : (q -> gMultiRules g = []) \/ (forall ev, isStream ev = true -> failed ev = true -> bad ev = false).
Notation findRules := (findRules (cType c) (cText c) (cUpper c) g).

Lemma findRules_one t st rs : gMultiRules g = [] -> findRules t st = Some rs -> (length rs <= 1)%nat.
Proof.
  intros HM. unfold Rules.findRules. destruct (isSideToken (cType c) g t).
  - destruct t; intros H; injection H as <-; cbn; lia.
  - destruct (possibleRuleKeys (cType c) (cText c) (cUpper c) g t) as [keys|]; [|discriminate]. cbn [obind].
    destruct (zslice (gRules g) (sLow st) (sHigh st)) as [rules|]; [|discriminate]. cbn [obind]. rewrite HM.
    destruct (zslice (@nil multiRule) (sLowMulti st) (sHighMulti st)) as [multi|] eqn:EM; [|discriminate]. cbn [obind].
    assert (HN : multi = []).
    { unfold zslice in EM. destruct (_ && _); [|discriminate]. injection EM as <-. rewrite skipn_nil, firstn_nil. auto. }
    subst multi. clear EM. induction keys as [|k ks IH]; cbn [findByKeys]; [intros H; injection H as <-; cbn; lia|].
    unfold findKey. destruct (match rules with r0 :: _ => (k =? AnyToken) && (rToken r0 =? k) | [] => false end).
    { cbn [obind]. intros H. injection H as <-. destruct rules as [|? [|? ?]]; cbn; lia. }
    assert (FM : forall k, findMulti g [] k = Some None) by (intros; unfold findMulti; destruct (zget (@nil multiRule) _) eqn:X; [unfold zget in X; destruct (_ <? 0); [discriminate|]; destruct (Z.to_nat _); discriminate|auto]).
    rewrite FM. destruct (zget rules _) as [r|]; cbn [obind]; auto.
    destruct (rToken r =? k); cbn [obind]; auto. intros H. injection H as <-. cbn. lia.
Qed.

Lemma lookLoop_done : forall fuel t tokens k s e s', lookLoop c fuel t tokens k s <> Fail e s'.
Proof.
  induction fuel as [|f IH]; intros t tokens k s e s'; cbn [lookLoop]; [discriminate|].
  destruct (lookRound c (S f) t 0 (kNext k) _ (pLost s)) as [[[k1 lost]|]|]; try discriminate.
  set (fin := fun s2 : pstate => match match kNext k1 with b :: _ => Some b | [] => match kSuccess k1 with Some b => Some b | None => kError k1 end end with
      | None => Panic | Some b => match nth_error (kStore k1) b with Some br => Done (tokens ++ [t], bRules br) s2 | None => Panic end end).
  assert (FIN : forall s2, fin s2 <> Fail e s').
  { intros s2. unfold fin. destruct (match kNext k1 with b :: _ => Some b | [] => _ end) as [b|]; [|discriminate]. destruct (nth_error (kStore k1) b); discriminate. }
  destruct (length (kNext k1) <=? 1)%nat; [apply FIN|]. destruct (lookTypes (kStore k1) (kNext k1) =? 0); [apply FIN|].
  destruct (nextToken c (S f) _ _) as [t2 s2|e2 s2| |s2]; try discriminate; [apply IH|apply FIN].
Qed.

Lemma errs_lookLoop : (forall ev, isStream ev = true -> failed ev = true -> bad ev = false) ->
  forall fuel t tokens k s, nb s -> errs (lookLoop c fuel t tokens k s).
Proof.
  intros BS. induction fuel as [|f IH]; intros t tokens k s H; cbn [lookLoop]; [exact H|].
  destruct (lookRound c (S f) t 0 (kNext k) _ (pLost s)) as [[[k1 lost]|]|]; [|exact I|exact H].
  set (fin := fun s2 : pstate => match match kNext k1 with b :: _ => Some b | [] => match kSuccess k1 with Some b => Some b | None => kError k1 end end with
      | None => Panic | Some b => match nth_error (kStore k1) b with Some br => Done (tokens ++ [t], bRules br) s2 | None => Panic end end).
  assert (FIN : forall s2, nb s2 -> errs (fin s2)).
  { intros s2 H2. unfold fin. destruct (match kNext k1 with b :: _ => Some b | [] => _ end) as [b|]; [|exact I]. destruct (nth_error (kStore k1) b); [exact H2|exact I]. }
  destruct (length (kNext k1) <=? 1)%nat; [exact (FIN (setLost s lost) H)|]. destruct (lookTypes (kStore k1) (kNext k1) =? 0); [exact (FIN (setLost s lost) H)|].
  pose proof (strE_nextToken (S f) (lookTypes (kStore k1) (kNext k1)) (setLost s lost)) as HS.
  pose proof (errs_nextToken (S f) (lookTypes (kStore k1) (kNext k1)) (setLost s lost) H) as HE.
  destruct (nextToken c (S f) _ (setLost s lost)) as [t2 s2|e2 s2| |s2]; [apply IH; exact HE| |exact I|exact HE].
  apply FIN. destruct HS as (l & E1 & HL). destruct HE as (ev & r & E2 & E3 & HR). intros HQ.
    destruct l as [|x l]; [rewrite E1; exact (H HQ)|]. cbn [app] in E1. rewrite E2 in E1. injection E1 as <- ->.
    cbn in HL. apply andb_true_iff in HL as [HL _]. rewrite E2. cbn. rewrite BS, (HR HQ); auto. destruct ev; cbn in *; congruence.
Qed.

Lemma errs_nextRule fuel t st s : nb s -> errs (nextRule c fuel t st s).
Proof.
  intros H. unfold nextRule. destruct (pApplied s) as [|r rest]; [|exact H].
  destruct (findRules t st) as [[|r1 [|r2 rs]]|] eqn:EF; [exact H|exact H| |exact I].
  unfold resolveConflict. destruct (pStack s) as [|n ns]; [exact I|].
  match goal with |- errs (bind (lookLoop c fuel t [] ?k s) _) => 
    assert (HE : q -> errs (lookLoop c fuel t [] k s)) by (intros HQ; destruct look_ok as [NC|BS]; [apply findRules_one in EF; [cbn in EF; lia|auto]|apply errs_lookLoop; auto]) end.
  destruct (lookLoop c fuel t [] _ s) as [[tokens rules] s1|e s1| |s1] eqn:EL; cbn [bind].
  - destruct rules as [|r rest]; [exact I|]. intros HQ. exact (HE HQ HQ).
  - exfalso. eapply lookLoop_done; eauto.
  - exact I.
  - intros HQ. exact (HE HQ HQ).
Qed.

(** *** The parser: errors of its own are not in the log *)
Definition ownErr (e : err Tok E) : Prop :=
  match e with UnexpectedEoi _ _ | UnexpectedToken _ _ | RemainingSource _ => True | _ => False end.
Definition errsP {A} (m : res A) : Prop :=
  match m with
  | Fail e s => (exists ev r, pLog s = ev :: r /\ evErr ev = Some e /\ nbl r) \/ (ownErr e /\ nb s)
  | _ => errs m
  end.
Lemma errsP_errs {A} (m : res A) : errs m -> errsP m.
Proof. destruct m; cbn; auto. Qed.
Lemma errsP_bind {A B} (m : res A) (k : A -> pstate -> res B) : errsP m -> (forall a s, nb s -> errsP (k a s)) -> errsP (bind m k).
Proof. destruct m; cbn; auto. Qed.

Lemma errs_parseLoop : forall fuel used t s, nb s -> errsP (parseLoop c fuel used t s).
Proof.
  induction fuel as [|f IH]; intros used t s H; cbn [parseLoop]; [exact H|].
  destruct (pStack s) as [|n ns]; [exact H|]. destruct used.
  - apply errsP_bind; [apply errsP_errs, errs_checkCtx; auto|]. intros _ s1 H1.
    apply errsP_bind; [apply errsP_errs, errs_nextToken; auto|]. intros t2 s2 H2. apply IH. apply nb_log; auto.
  - destruct (zget (gStates g) (nState n)) as [st|]; [|exact I].
    apply errsP_bind; [apply errsP_errs, errs_nextRule; auto|]. intros [r|] s1 H1.
    + apply errsP_bind; [apply errsP_errs, errs_applyRule; auto|]. intros; apply IH; auto.
    + unfold syntaxError. apply errsP_bind; [destruct t; [exact H1|apply errsP_errs, errs_nextToken; auto]|].
      intros t2 s2 H2. destruct (getExpectedToken c st); [|exact I]. destruct t2 as [t2|]; [|exact I].
      right. split; auto. destruct (cType c t2 =? EoiTokenType); exact I.
Qed.
Lemma errs_restLoop : forall fuel s, nb s -> errsP (restLoop c fuel s).
Proof.
  induction fuel as [|f IH]; intros s H; cbn [restLoop]; [exact H|].
  apply errsP_bind; [apply errsP_errs, errs_nextToken; auto|]. intros [t|] s1 H1; [|exact I].
  destruct (cType c t =? EoiTokenType); [apply nb_log; auto|]. destruct (isSideType g (cType c t)); [apply IH; apply nb_log; auto|].
  right. split; [exact I|apply nb_log; auto].
Qed.
Lemma errs_parseFrom fuel w t0 : errsP (parseFrom c fuel w t0).
Proof.
  unfold parseFrom, start. apply errsP_bind; [apply errsP_errs, errs_pushNode; intros _; reflexivity|]. intros _ s H.
  unfold parse. apply errsP_bind; [apply errs_parseLoop; auto|]. intros [used t] s1 H1.
  destruct (if used then Some s1 else _) as [s2|] eqn:E2; [|exact I].
  assert (H2 : nb s2).
  { destruct used; [injection E2 as <-; auto|]. destruct t as [t|]; [|discriminate]. injection E2 as <-. destruct (_ =? _); auto. }
  apply errsP_bind; [destruct (_ && _); [apply errs_restLoop; auto|exact H2]|]. intros; auto.
Qed.
End P.
