(** How the world changes in a parse: every change is one of the calls of hooks, lexers or
    the context, and each of them is in the log. *)
From Coq Require Import ZArith List Bool Lia Arith.
From Verif Require Import Base BaseProofs Grammar Rules Parser ParserSpec ParserProofs.
Import ListNotations.
Open Scope Z_scope.

Section P.
Context {Tok Src W E Inst R : Type}.
Variable c : config Tok Src W E Inst R.
Notation g := (cGrammar c).
Notation pstate := (pstate Tok Src W E Inst R).
Notation event := (event Tok E Inst R).
Notation res := (res Tok Src W E Inst R).
Notation M := (cMethods c).
Notation world := (world Src W).

(** One call; logs have the latest event first. *)
Inductive prim : world * list event -> world * list event -> Prop :=
| P_newNode w l w' e layer i node t : zget (gNodes g) node <> None -> mNewNode M i node t w = (w', e) -> prim (w, l) (w', EvNewNode layer i node t :: l)
| P_token w l w' e layer i t : mHandleToken M i t w = (w', e) -> prim (w, l) (w', EvToken layer i t :: l)
| P_node w l w' e layer i node x : mHandleNode M i node x w = (w', e) -> prim (w, l) (w', EvNode layer i node x :: l)
| P_end w l w' e layer i x : mEndNode M i w = (w', (x, e)) -> prim (w, l) (w', EvEnd layer i x :: l)
| P_create w l w' e layer table (h : nodeHook) node t i : nth_error (cNodeHooks c) layer = Some table -> In (Some h) table ->
    h node t w = (w', (i, e)) -> prim (w, l) (w', EvCreate layer node t i :: l)
| P_nodeFail w l e : prim (w, l) (w, EvNodeFail e :: l)
| P_fail w l e : prim (w, l) (w, EvFail e :: l)
| P_wrong w l t : prim (w, l) (w, EvWrong t :: l)
| P_check w l w' e : cCtx c w = (w', e) -> prim (w, l) (w', EvCheck :: l)
| P_fetch w l types src t : fetchToken c types (fst w) = (src, (t, None)) ->
    prim (w, l) ((src, snd w), EvPass (length (cTokenHooks c)) t :: l)
| P_fetchFail w l types src t e : fetchToken c types (fst w) = (src, (t, Some e)) -> prim (w, l) ((src, snd w), EvFail e :: l)
| P_pass w l layer t : (layer < length (cTokenHooks c))%nat -> prim (w, l) (w, EvPass layer t :: l)
| P_noHook w l layer t : prim (w, l) (w, EvDecide layer t true [] :: l)
| P_hook w l layer hooks hook above t tc w' emit extra emit' extra' : In hooks (cTokenHooks c) -> In (Some hook) hooks ->
    runHook c above (hook t) (mkTC 0 None) w = (tc, w', (emit, extra, None)) ->
    (emit', extra') = (if negb emit && (cType c t <? 0) then match extra with [] => (true, []) | _ => (false, extra ++ [t]) end else (emit, extra)) ->
    prim (w, l) (restore tc w', EvDecide layer t emit' extra' :: l)
| P_hookFail w l hooks hook above t tc w' emit extra e : In hooks (cTokenHooks c) -> In (Some hook) hooks ->
    runHook c above (hook t) (mkTC 0 None) w = (tc, w', (emit, extra, Some e)) ->
    prim (w, l) (restore tc w', EvFail e :: l)
| P_next w l t : prim (w, l) (w, EvNext t :: l)
| P_rest w l t : prim (w, l) (w, EvRest t :: l).

Inductive hist : world * list event -> world * list event -> Prop :=
| H_refl x : hist x x
| H_step x y z : hist x y -> prim y z -> hist x z.
Lemma hist_trans x y z : hist x y -> hist y z -> hist x z.
Proof. intros H1 H2. induction H2 as [|a b d HA IH HB]; auto. exact (H_step _ _ _ (IH H1) HB). Qed.
Lemma hist_one x y : prim x y -> hist x y.
Proof. econstructor; [constructor|auto]. Qed.

Definition at_ (s : pstate) : world * list event := (pWorld s, pLog s).
Definition hs {A} (x : world * list event) (m : res A) : Prop :=
  match m with Done _ s' | Fail _ s' | NoFuel s' => hist x (at_ s') | Panic => True end.
Lemma hs_bind {A B} x (m : res A) (k : A -> pstate -> res B) : hs x m -> (forall a s', hs (at_ s') (k a s')) -> hs x (bind m k).
Proof.
  destruct m as [a s|e s| |s]; cbn; auto. intros H1 H2. specialize (H2 a s). destruct (k a s); cbn in *; auto; eapply hist_trans; eauto.
Qed.
(** a call and the check of its error *)
Lemma hs_nret x e (s : pstate) : prim x (at_ s) -> hs x (nret e s).
Proof. intros H. destruct e; cbn; [|apply hist_one; auto]. econstructor; [apply hist_one; eauto|]. apply P_nodeFail. Qed.
Lemma hs_refl {A} (a : A) (s s' : pstate) : at_ s' = at_ s -> hs (at_ s) (Done a s').
Proof. intros H. cbn. rewrite H. constructor. Qed.

Lemma hs_newNodes : forall hooks layer node t s, zget (gNodes g) node <> None -> hs (at_ s) (newNodes c layer hooks node t s).
Proof.
  induction hooks as [|[i|] r IH]; intros; cbn [newNodes]; [apply hs_refl; auto| |auto]. destruct (mNewNode _ _ _ _ _) as [w e] eqn:EM.
  apply hs_bind; [apply hs_nret; cbn; eapply P_newNode; eauto|auto].
Qed.
Lemma hs_handleTokens : forall hooks layer t s, hs (at_ s) (handleTokens c layer hooks t s).
Proof.
  induction hooks as [|[i|] r IH]; intros; cbn [handleTokens]; [apply hs_refl; auto| |auto]. destruct (mHandleToken _ _ _ _) as [w e] eqn:EM.
  apply hs_bind; [apply hs_nret; cbn; eapply P_token; eauto|auto].
Qed.
Lemma hs_endNodes : forall hooks layer s, hs (at_ s) (endNodes c layer hooks s).
Proof.
  induction hooks as [|[i|] r IH]; intros layer s; cbn [endNodes]; [apply hs_refl; auto| |].
  - destruct (mEndNode _ _ _) as [w [x e]] eqn:EM. apply hs_bind; [apply hs_nret; cbn; eapply P_end; eauto|]. intros _ s1.
    apply hs_bind; [|intros; apply hs_refl; auto]. destruct (_ && _); [apply (IH (S layer) (setLast s1 x))|apply IH].
  - apply hs_bind; [apply IH; auto|]. intros; apply hs_refl; auto.
Qed.
Lemma hs_handleNodes : forall hooks layer node results s, hs (at_ s) (handleNodes c layer hooks node results s).
Proof.
  induction hooks as [|[i|] r IH]; intros layer node results s; cbn [handleNodes]; [apply hs_refl; auto| |auto].
  destruct results as [|x xs]; [exact I|]. destruct (mHandleNode _ _ _ _ _) as [w e] eqn:EM. apply hs_bind; [apply hs_nret; cbn; eapply P_node; eauto|auto].
Qed.
Lemma zget_In {A} (l : list A) i x : zget l i = Some x -> In x l.
Proof. unfold zget. destruct (_ <? _); [discriminate|]. apply nth_error_In. Qed.
Lemma hs_newHooks : forall tables layer node t (s : pstate), (forall i table, nth_error tables i = Some table -> nth_error (cNodeHooks c) (layer + i) = Some table) -> hs (at_ s) (newHooks layer tables node t s).
Proof.
  induction tables as [|table r IH]; intros layer node t s HT; cbn [newHooks]; [apply hs_refl; auto|].
  apply hs_bind; [|intros; apply hs_bind; [apply IH; intros i0 tb Hi; rewrite Nat.add_succ_comm; apply HT; exact Hi|intros; apply hs_refl; auto]].
  unfold getNodeHook. destruct (zget table (node + 1)) as [h|] eqn:E1; [|exact I]. destruct (zget table 0) as [any|] eqn:E2; [|exact I].
  destruct (match h with Some _ => h | None => any end) as [h'|] eqn:EH; [|apply hs_refl; auto]. destruct (h' _ _ _) as [w [i e]] eqn:EM.
  apply hs_bind; [apply hs_nret; cbn; eapply (P_create _ _ _ e layer table h'); eauto|intros; apply hs_refl; auto].
  - specialize (HT 0%nat table eq_refl). rewrite Nat.add_0_r in HT. exact HT.
  - apply zget_In in E1. apply zget_In in E2. destruct h; congruence.
Qed.
Lemma hs_handleTokenList hooks : forall ts s, hs (at_ s) (handleTokenList c hooks ts s).
Proof. induction ts; intros s; cbn [handleTokenList]; [apply hs_refl; auto|]. apply hs_bind; [apply hs_handleTokens; auto|auto]. Qed.
Lemma hs_handleNodeSides s : hs (at_ s) (handleNodeSides c s).
Proof. unfold handleNodeSides. destruct (pStack s); [apply hs_refl; auto|]. apply hs_bind; [apply hs_handleTokenList; auto|intros; apply hs_refl; auto]. Qed.
Lemma hs_pushNode node t s : hs (at_ s) (pushNode c node t s).
Proof.
  unfold pushNode. apply hs_bind; [apply hs_handleNodeSides; auto|]. intros _ s1. destruct (zget (gNodes g) node) as [nt|] eqn:EN; [|exact I].
  apply hs_bind; [destruct (pStack s1); [apply hs_refl; auto|apply hs_newNodes; congruence]|]. intros _ s2.
  apply hs_bind; [apply hs_newHooks; auto|]. intros hooks s3. destruct (zget (gStates g) (gnFirst nt)); [apply hs_refl; auto|exact I].
Qed.
Lemma hs_popLoop : forall stack sides s, hs (at_ s) (popLoop c stack sides s).
Proof.
  induction stack as [|n rest IH]; intros sides s; cbn [popLoop]; [apply hs_refl; auto|].
  destruct (negb _); [apply hs_refl; auto|]. apply hs_bind; [destruct rest; [apply hs_handleTokenList; auto|apply hs_refl; auto]|]. intros _ s1.
  apply hs_bind; [apply hs_endNodes; auto|]. intros results s2. destruct rest as [|p qq]; [apply hs_refl; auto|].
  apply (hs_bind (at_ (setStack s2 (p :: qq)))); [apply hs_handleNodes; auto|]. intros _ s3. apply IH; auto.
Qed.
Lemma hs_applyRule t r s : hs (at_ s) (applyRule c t r s).
Proof.
  unfold applyRule. destruct (pStack s) as [|n st]; [exact I|]. destruct (if rState r =? repeatState then _ else _) as [n'|]; [|exact I].
  apply hs_bind; [|intros _ s1; apply hs_bind; [|intros; apply hs_refl; auto]].
  - destruct (negb _); [apply (hs_pushNode _ _ (setTop s n')); auto|]. destruct (_ || _); [|apply hs_refl; auto]. unfold handleNodeToken. destruct t as [t|]; [|apply hs_refl; auto].
    destruct (pStack (setTop s n')) as [|m qq]; [exact I|]. destruct (isSideToken (cType c) g (Some t)); [apply hs_refl; auto|].
    apply hs_bind; [apply (hs_handleNodeSides (setTop s n')); auto|]. intros; apply hs_handleTokens; auto.
  - destruct (pStack s1) as [|m qq] eqn:ES; [exact I|]. destruct (nState m =? FinalState); [|apply hs_refl; auto]. unfold popNode. rewrite ES.
    apply (hs_popLoop _ _ (setTop s1 (setNSides m []))); auto.
Qed.

(** *** Fetching *)
Lemma hs_checkCtx s : hs (at_ s) (checkCtx c s).
Proof.
  unfold checkCtx. destruct (cCtx c (pWorld s)) as [w e] eqn:EM. assert (P : prim (at_ s) (at_ (log EvCheck (setWorld s w)))) by (eapply P_check; eauto).
  destruct e; cbn; [|apply hist_one; auto]. econstructor; [apply hist_one; eauto|]. apply P_fail.
Qed.
Lemma firstHook_In hooks : forall tts h, firstHook (W:=W) (Src:=Src) (E:=E) (Tok:=Tok) hooks tts = Some (Some h) -> In (Some h) hooks.
Proof.
  induction tts as [|i r IH]; intros h; cbn [firstHook]; [discriminate|]. destruct (zget hooks (i + tokenHooksOffset)) as [[x|]|] eqn:EZ; cbn [obind]; [|auto|discriminate].
  intros H. injection H as <-. apply zget_In in EZ. auto.
Qed.
Lemma hookFor_In hooks t h : hookFor c hooks t = Some (Some h) -> In (Some h) hooks.
Proof. unfold hookFor. destruct (if cType c t <? 0 then _ else _) as [tts|]; cbn [obind]; [apply firstHook_In|discriminate]. Qed.
Lemma hs_handleToken t layer hooks s : In hooks (cTokenHooks c) -> hs (at_ s) (handleToken c t layer hooks s).
Proof.
  intros HI. unfold handleToken. destruct t as [t|]; [|apply hs_refl; auto]. apply hs_bind; [apply hs_checkCtx; auto|]. intros _ s1.
  destruct (hookFor c hooks t) as [[hook|]|] eqn:EH; [|cbn; apply hist_one, P_noHook|exact I]. apply hookFor_In in EH.
  destruct (runHook c _ _ _ _) as [[tc w] [[emit extra] e]] eqn:ER. destruct e as [e|]; cbn [ret bind hs].
  - apply hist_one. eapply P_hookFail; eauto.
  - apply hist_one. cbn. eapply P_hook; eauto. destruct (negb emit && _); auto. destruct extra; auto.
Qed.
Lemma hs_appendExtra layer : forall extra s, hs (at_ s) (appendExtra c layer extra s).
Proof.
  induction extra as [|t r IH]; intros s; cbn [appendExtra]; [apply hs_refl; auto|]. destruct (isValidType c (cType c t)); cbn [negb].
  - apply (IH (setQueue s layer (nth layer (pQueues s) [] ++ [t]))).
  - cbn. apply hist_one, P_wrong.
Qed.
Lemma hs_pullToken fuel types : forall hks layer s, (forall h, In h hks -> In h (cTokenHooks c)) -> (layer + length hks = length (cTokenHooks c))%nat ->
  hs (at_ s) (pullToken c fuel types hks layer s).
Proof.
  induction hks as [|hooks hks IH]; intros layer s HI HL; cbn [pullToken].
  - destruct (fetchToken c types _) as [src [t e]] eqn:EF. destruct e as [e|]; cbn [ret bind hs]; apply hist_one.
    + eapply P_fetchFail; eauto.
    + cbn in HL. replace layer with (length (cTokenHooks c)) by lia. eapply P_fetch; eauto.
  - cbn [length] in HL. destruct (nth layer (pQueues s) []); [|cbn; apply hist_one, P_pass; lia].
    set (pull := pullToken c fuel types hks (S layer)) in *.
    assert (HP : forall s, hs (at_ s) (pull s)) by (intros; apply IH; [intros; apply HI; right; auto|lia]). clearbody pull.
    generalize fuel at 1. intros f. revert s. induction f as [|f IHf]; intros s; cbn [pullLoop]; [constructor|].
    apply hs_bind; [apply HP; auto|]. intros t s1. apply hs_bind; [apply hs_handleToken; apply HI; left; auto|]. intros [emit extra] s2.
    apply hs_bind; [apply hs_appendExtra; auto|]. intros _ s3. destruct emit; [apply hist_one, P_pass; lia|].
    destruct (nth layer (pQueues s3) []); [apply IHf; auto|apply hist_one; cbn; apply P_pass; lia].
Qed.
Lemma hs_nextToken fuel types s : hs (at_ s) (nextToken c fuel types s).
Proof.
  unfold nextToken. destruct (pTokens s); [|apply hs_refl; auto]. revert s. induction fuel as [|f IH]; intros s; cbn [nextLoop]; [constructor|].
  apply hs_bind; [apply hs_pullToken; auto|]. intros t s1. destruct (_ && _); [apply hs_refl; auto|apply IH; auto].
Qed.
Lemma hs_lookLoop : forall fuel t tokens k s, hs (at_ s) (lookLoop c fuel t tokens k s).
Proof.
  induction fuel as [|f IH]; intros t tokens k s; cbn [lookLoop]; [constructor|].
  destruct (lookRound c (S f) t 0 (kNext k) _ (pLost s)) as [[[k1 lost]|]|]; [|exact I|constructor].
  set (fin := fun s2 : pstate => match match kNext k1 with b :: _ => Some b | [] => match kSuccess k1 with Some b => Some b | None => kError k1 end end with
      | None => Panic | Some b => match nth_error (kStore k1) b with Some br => Done (tokens ++ [t], bRules br) s2 | None => Panic end end).
  assert (FIN : forall s2, hs (at_ s2) (fin s2)).
  { intros s2. unfold fin. destruct (match kNext k1 with b :: _ => Some b | [] => _ end) as [b|]; [|exact I]. destruct (nth_error (kStore k1) b); [constructor|exact I]. }
  destruct (length (kNext k1) <=? 1)%nat; [exact (FIN (setLost s lost))|]. destruct (lookTypes (kStore k1) (kNext k1) =? 0); [exact (FIN (setLost s lost))|].
  pose proof (hs_nextToken (S f) (lookTypes (kStore k1) (kNext k1)) (setLost s lost)) as H.
  destruct (nextToken c (S f) _ (setLost s lost)) as [t2 s2|e2 s2| |s2]; auto.
  - apply (hs_bind (at_ s) (Done t2 s2) (fun t2 s2 => lookLoop c f t2 (tokens ++ [t]) k1 s2)); auto.
  - apply (hs_bind (at_ s) (Done tt s2) (fun _ s2 => fin s2)); auto.
Qed.
Lemma hs_nextRule fuel t st s : hs (at_ s) (nextRule c fuel t st s).
Proof.
  unfold nextRule. destruct (pApplied s) as [|r rest]; [|apply hs_refl; auto].
  destruct (findRules _ _ _ g t st) as [[|r1 [|r2 rs]]|]; [apply hs_refl; auto|apply hs_refl; auto| |exact I].
  unfold resolveConflict. destruct (pStack s) as [|n ns]; [exact I|]. apply hs_bind; [apply hs_lookLoop|].
  intros [tokens rules] s1. destruct rules; [exact I|apply hs_refl; auto].
Qed.
Lemma hs_parseLoop : forall fuel used t s, hs (at_ s) (parseLoop c fuel used t s).
Proof.
  induction fuel as [|f IH]; intros used t s; cbn [parseLoop]; [constructor|].
  destruct (pStack s) as [|n ns]; [apply hs_refl; auto|]. destruct used.
  - apply hs_bind; [apply hs_checkCtx; auto|]. intros _ s1. apply hs_bind; [apply hs_nextToken|]. intros t2 s2.
    specialize (IH false t2 (log (EvNext t2) s2)). destruct (parseLoop c f false t2 _); cbn in *; auto; (eapply hist_trans; [apply hist_one, P_next|exact IH]).
  - destruct (zget (gStates g) (nState n)) as [st|]; [|exact I]. apply hs_bind; [apply hs_nextRule|]. intros [r|] s1.
    + apply hs_bind; [apply hs_applyRule|]. intros; apply IH.
    + unfold syntaxError. apply hs_bind; [destruct t; [apply hs_refl; auto|apply hs_nextToken]|].
      intros t2 s2. destruct (getExpectedToken c st); [|exact I]. destruct t2 as [t2|]; [|exact I]. constructor.
Qed.
Lemma hs_restLoop : forall fuel s, hs (at_ s) (restLoop c fuel s).
Proof.
  induction fuel as [|f IH]; intros s; cbn [restLoop]; [constructor|].
  apply hs_bind; [apply hs_nextToken|]. intros [t|] s1; [|exact I].
  assert (P : hist (at_ s1) (at_ (log (EvRest t) s1))) by (apply hist_one, P_rest).
  destruct (cType c t =? EoiTokenType); [exact P|]. destruct (isSideType g (cType c t)); [|exact P].
  specialize (IH (log (EvRest t) s1)). destruct (restLoop c f (log (EvRest t) s1)); cbn in *; auto; eapply hist_trans; eauto.
Qed.
Lemma hs_start w t0 : hs (w, []) (start c w t0).
Proof. apply (hs_pushNode RootNode (Some t0) (mkP w [] (repeat [] (length (cTokenHooks c))) [] None [] [] false)). Qed.
(** What holds of every event *)
Lemma ends_events (P : event -> Prop) fuel w t0 :
  (forall w l w' ev, prim (w, l) (w', ev :: l) -> P ev) ->
  match parseFrom c fuel w t0 with Done _ s | Fail _ s | NoFuel s => Forall P (pLog s) | Panic => True end.
Proof.
  intros HP.
  assert (HH : forall x y, hist x y -> Forall P (snd x) -> Forall P (snd y)).
  { induction 1 as [x|x y z H1 IH H2]; auto. intros H. specialize (IH H). destruct y as [w1 l1].
    assert (X : exists ev, snd z = ev :: l1) by (inversion H2; cbn; eauto). destruct z as [w2 l2]. destruct X as (ev & X). cbn in X. subst l2.
    cbn in *. constructor; [exact (HP _ _ _ _ H2)|auto]. }
  assert (HB : forall A B (m : res A) (k : A -> pstate -> res B),
    match m with Done _ s | Fail _ s | NoFuel s => Forall P (pLog s) | Panic => True end ->
    (forall a s, Forall P (pLog s) -> match k a s with Done _ s | Fail _ s | NoFuel s => Forall P (pLog s) | Panic => True end) ->
    match bind m k with Done _ s | Fail _ s | NoFuel s => Forall P (pLog s) | Panic => True end).
  { intros A B m k H1 H2. destruct m as [a s|e s| |s]; cbn [bind] in *; auto. apply H2. exact H1. }
  assert (HX : forall A (s : pstate) (m : res A), hs (at_ s) m -> Forall P (pLog s) -> match m with Done _ s | Fail _ s | NoFuel s => Forall P (pLog s) | Panic => True end).
  { intros A s m H1 H2. destruct m; cbn in *; auto; apply (HH _ _ H1); exact H2. }
  unfold parseFrom. apply HB.
  { unfold start. eapply HX; [apply hs_pushNode|constructor]. }
  intros _ s1 H1. unfold parse. apply HB; [eapply HX; [apply hs_parseLoop|auto]|]. intros [used t] s2 H2.
  destruct (if used then Some s2 else _) as [s3|] eqn:E3; auto.
  assert (S3 : Forall P (pLog s3)).
  { destruct used; [injection E3 as <-; auto|]. destruct t as [t|]; [|discriminate]. injection E3 as <-. destruct (_ =? _); auto. }
  apply HB; [|intros; auto]. destruct (_ && _); auto. eapply HX; [apply hs_restLoop|auto].
Qed.
End P.
