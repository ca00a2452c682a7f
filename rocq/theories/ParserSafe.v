(** The parser does not panic. *)
From Coq Require Import ZArith List Bool Lia Arith Sorted.
From Verif Require Import Base BaseProofs Grammar Rules RulesSpec Prop_Rules Parser ParserSpec ParserProofs ParserLook ParserSafeSpec.
Import ListNotations.
Open Scope Z_scope.

Section P.
Context {Tok Src W E Inst R : Type}.
Variable c : config Tok Src W E Inst R.
Notation g := (cGrammar c).
Notation pstate := (pstate Tok Src W E Inst R).
Notation res := (res Tok Src W E Inst R).
Notation nodeRec := (nodeRec Tok Inst).
Notation branch := (branch Tok Inst).
Hypothesis ST : settingOk c.
Hypothesis NIL : alwaysToken c \/ gMultiRules g = [].
Let GO := st_grammar c ST.

Definition ok {A} (P : A -> pstate -> Prop) (m : res A) : Prop :=
  match m with Done a s => P a s | Panic => False | _ => True end.
Lemma ok_bind {A B} (P : A -> pstate -> Prop) (Q : B -> pstate -> Prop) m k :
  ok P m -> (forall a s, P a s -> ok Q (k a s)) -> ok Q (bind m k).
Proof. destruct m; cbn; auto. Qed.
Lemma ok_weak {A} (P Q : A -> pstate -> Prop) m : ok P m -> (forall a s, P a s -> Q a s) -> ok Q m.
Proof. destruct m; cbn; auto. Qed.

Notation known := (knownToken c).
Definition validState (i : Z) : Prop := exists st, zget (gStates g) i = Some st.
Definition nodeOk (n : nodeRec) : Prop := (nState n = FinalState \/ validState (nState n)) /\ length (nHooks n) = length (cNodeHooks c).
Definition ruleOk (r : rule) : Prop :=
  (rState r = repeatState \/ rState r = FinalState \/ validState (rState r)) /\
  (rNode r = SameNode \/ exists nt, zget (gNodes g) (rNode r) = Some nt).
Definition someKnown (o : option Tok) : Prop := exists t, o = Some t /\ known t.
Definition optKnown (o : option Tok) : Prop := forall t, o = Some t -> known t.
Record good (s : pstate) : Prop := mkGood {
  gd_stack : Forall nodeOk (pStack s);
  gd_queues : Forall (Forall known) (pQueues s);
  gd_tokens : Forall someKnown (pTokens s);
  gd_applied : Forall ruleOk (pApplied s) }.
Definition topOk (s : pstate) : Prop := match pStack s with [] => True | n :: _ => nState n <> FinalState end.

Lemma good_same s s' : sameN s s' -> good s -> good s'.
Proof. intros [A B C D _] []. constructor; congruence. Qed.
Lemma good_stack s st : good s -> Forall nodeOk st -> good (setStack s st).
Proof. intros [] H. constructor; auto. Qed.
Lemma good_top s n : good s -> nodeOk n -> good (setTop s n).
Proof. intros G H. apply good_stack; auto. constructor; auto. destruct G. destruct (pStack s); cbn; auto. inversion gd_stack0; auto. Qed.
Ltac sn := constructor; reflexivity.

Lemma safe_nret ev s w e : ok (fun _ s' => sameN s s') (nret (Tok:=Tok) (Src:=Src) (R:=R) (Inst:=Inst) e (log ev (setWorld s w))).
Proof. destruct e; cbn; auto. sn. Qed.
Lemma safe_newNodes : forall hooks layer node t s, ok (fun _ s' => sameN s s') (newNodes c layer hooks node t s).
Proof.
  induction hooks as [|[i|] r IH]; intros layer node t s; cbn [newNodes]; [sn| |auto]. destruct (mNewNode _ _ _ _ _) as [w e].
  eapply ok_bind; [apply safe_nret|]. cbn beta. intros _ s1 H1. eapply ok_weak; [apply IH|]. cbn beta. intros _ s2 H2. eapply sameN_trans; eauto.
Qed.
Lemma safe_handleTokens : forall hooks layer t s, ok (fun _ s' => sameN s s') (handleTokens c layer hooks t s).
Proof.
  induction hooks as [|[i|] r IH]; intros layer t s; cbn [handleTokens]; [sn| |auto]. destruct (mHandleToken _ _ _ _) as [w e].
  eapply ok_bind; [apply safe_nret|]. cbn beta. intros _ s1 H1. eapply ok_weak; [apply IH|]. cbn beta. intros _ s2 H2. eapply sameN_trans; eauto.
Qed.
Lemma safe_endNodes : forall hooks layer s, ok (fun l s' => sameN s s' /\ length l = length hooks) (endNodes c layer hooks s).
Proof.
  induction hooks as [|[i|] r IH]; intros layer s; cbn [endNodes]; [split; [sn|auto]| |].
  - destruct (mEndNode _ _ _) as [w [x e]]. eapply ok_bind; [apply safe_nret|]. cbn beta. intros _ s1 H1.
    eapply ok_bind; [apply IH|]. cbn. intros l s2 [H2 H3]. split; [|auto]. eapply sameN_trans; eauto. eapply sameN_trans; [|eauto]. destruct (_ && _); sn.
  - eapply ok_bind; [apply IH|]. cbn. intros l s2 [H2 H3]. auto.
Qed.
Lemma safe_handleNodes : forall hooks layer node results s, (length hooks <= length results)%nat -> ok (fun _ s' => sameN s s') (handleNodes c layer hooks node results s).
Proof.
  induction hooks as [|h r IH]; intros layer node results s HL; cbn [handleNodes]; [sn|]. destruct results as [|x xs]; cbn in HL; [lia|].
  destruct h as [i|]; [|apply IH; cbn; lia]. destruct (mHandleNode _ _ _ _ _) as [w e].
  eapply ok_bind; [apply safe_nret|]. cbn beta. intros _ s1 H1. eapply ok_weak; [apply IH; lia|]. cbn beta. intros _ s2 H2. eapply sameN_trans; eauto.
Qed.
Lemma zget_in {A} (l : list A) i : 0 <= i < zlen l -> exists x, zget l i = Some x.
Proof.
  intros H. destruct (zget l i) as [x|] eqn:EZ; eauto. unfold zget in EZ. destruct (Z.ltb_spec i 0); [lia|]. apply nth_error_None in EZ. unfold zlen in H. lia.
Qed.
Lemma safe_newHooks : forall tables layer node t (s : pstate), (forall table, In table tables -> zlen (gNodes g) < zlen table) -> 0 <= node < zlen (gNodes g) ->
  ok (fun l s' => sameN s s' /\ length l = length tables) (newHooks layer tables node t s).
Proof.
  induction tables as [|table r IH]; intros layer node t s HT HN; cbn [newHooks]; [split; [sn|auto]|].
  eapply (ok_bind (fun _ s' => sameN s s')).
  - pose proof (HT table (or_introl eq_refl)). unfold getNodeHook. destruct (zget_in table (node + 1)) as [h ->]; [lia|]. destruct (zget_in table 0) as [any ->]; [lia|].
    destruct (match h with Some _ => h | None => any end) as [h'|]; [|sn]. destruct (h' _ _ _) as [w [i e]].
    eapply ok_bind; [apply safe_nret|]. cbn. auto.
  - intros i s1 H1. eapply ok_bind; [apply IH; auto; intros; apply HT; right; auto|]. cbn. intros l s2 [H2 H3]. split; [|auto]. eapply sameN_trans; eauto.
Qed.
Lemma safe_handleTokenList hooks : forall ts s, ok (fun _ s' => sameN s s') (handleTokenList c hooks ts s).
Proof.
  induction ts as [|t r IH]; intros s; cbn [handleTokenList]; [sn|]. eapply ok_bind; [apply safe_handleTokens|]. cbn beta. intros _ s1 H1.
  eapply ok_weak; [apply IH|]. cbn beta. intros _ s2 H2. eapply sameN_trans; eauto.
Qed.
(** the stack stays the same up to side tokens *)
Definition sameStates (s s' : pstate) : Prop :=
  Forall2 (fun n m : nodeRec => nState n = nState m) (pStack s) (pStack s').
Lemma ss_refl (l : list nodeRec) : Forall2 (fun n m : nodeRec => nState n = nState m) l l.
Proof. induction l; constructor; auto. Qed.
Lemma safe_handleNodeSides s : good s -> ok (fun _ s' => good s' /\ sameStates s s') (handleNodeSides c s).
Proof.
  intros G. unfold handleNodeSides, sameStates. destruct (pStack s) as [|n st] eqn:ES; [cbn; rewrite ES; auto|].
  eapply ok_bind; [apply safe_handleTokenList|]. cbn beta. intros _ s1 H1. pose proof (good_same _ _ H1 G) as G1. destruct H1. cbn [ok]. split.
  - apply good_top; auto. destruct G1. rewrite sn_stack, ES in gd_stack0. inversion gd_stack0; auto.
  - cbn. rewrite sn_stack, ES. constructor; auto. apply ss_refl.
Qed.
Lemma validFirst node nt : zget (gNodes g) node = Some nt -> validState (gnFirst nt).
Proof. apply (go_first c GO). Qed.
Lemma valid_nonfinal i : validState i -> i <> FinalState.
Proof. intros (st & H) ->. unfold zget in H. discriminate. Qed.
Lemma safe_pushNode node t s : good s -> (exists nt, zget (gNodes g) node = Some nt) ->
  ok (fun _ s' => good s' /\ exists n rest, pStack s' = n :: rest /\ nState n <> FinalState) (pushNode c node t s).
Proof.
  intros G (nt & HN). unfold pushNode. eapply ok_bind; [apply safe_handleNodeSides; auto|]. cbn beta. intros _ s1 [G1 _]. rewrite HN.
  eapply (ok_bind (fun _ s' => sameN s1 s')); [destruct (pStack s1); [sn|apply safe_newNodes]|]. cbn beta. intros _ s2 H2.
  pose proof (zget_Some_inv _ _ _ HN) as HR.
  eapply ok_bind; [apply safe_newHooks; [apply (st_nodeHooks c ST)|auto]|]. cbn. intros hooks s3 [H3 HL].
  assert (G3 : good s3) by (eapply good_same; [|exact G1]; eapply sameN_trans; eauto).
  destruct (validFirst _ _ HN) as (st & HS). rewrite HS. cbn. assert (V : validState (gnFirst nt)) by (exists st; auto). split.
  - apply good_stack; auto. constructor; [split; auto|]. apply G3.
  - do 2 eexists. split; [reflexivity|]. apply valid_nonfinal. auto.
Qed.
Lemma safe_popLoop : forall stack sides s, good s -> pStack s = stack -> ok (fun _ s' => good s' /\ topOk s') (popLoop c stack sides s).
Proof.
  induction stack as [|n rest IH]; intros sides s G ES; cbn [popLoop]; [cbn; unfold topOk; rewrite ES; auto|].
  assert (NO : nodeOk n) by (destruct G; rewrite ES in *; inversion gd_stack0; auto).
  destruct (Z.eqb_spec (nState n) FinalState) as [HF|HF]; cbn [negb].
  - eapply (ok_bind (fun _ s' => sameN s s')); [destruct rest; [apply safe_handleTokenList|sn]|]. cbn beta. intros _ s1 H1.
    eapply ok_bind; [apply safe_endNodes|]. cbn. intros results s2 [H2 HL].
    pose proof (sameN_trans _ _ _ H1 H2) as H12. pose proof (good_same _ _ H12 G) as G2.
    assert (RO : Forall nodeOk rest) by (destruct G; rewrite ES in *; inversion gd_stack0; auto).
    destruct rest as [|p qq]; [cbn; split; [apply good_stack; auto|exact Logic.I]|].
    assert (G3 : good (setStack s2 (p :: qq))) by (apply good_stack; auto).
    eapply ok_bind; [apply safe_handleNodes|].
    { inversion RO as [|? ? [_ RL] RR]; subst. destruct NO as [_ N2]. rewrite HL, N2, RL. auto. }
    cbn beta. intros _ s3 H3. apply IH; [eapply good_same; eauto|]. destruct H3. auto.
  - cbn. split; [apply good_top; auto|]. unfold topOk. cbn. auto.
Qed.
Lemma valid_types n r st : nodeOk n -> zget (gStates g) (rState r) = Some st -> nodeOk (setNTypes (setNState n (rState r)) (sTypes st)).
Proof. intros [A B] H. split; auto. right. exists st. auto. Qed.
Definition next1 (r : rule) (n : nodeRec) : option nodeRec :=
  if rState r =? repeatState then Some n
  else let n := setNState n (rState r) in
       if rState r =? FinalState then Some n else do st <- zget (gStates g) (rState r); Some (setNTypes n (sTypes st)).
Lemma next1_ok r n : ruleOk r -> nodeOk n -> exists n', next1 r n = Some n' /\ nodeOk n'.
Proof.
  intros [HS _] HN. unfold next1. destruct (Z.eqb_spec (rState r) repeatState); eauto.
  destruct (Z.eqb_spec (rState r) FinalState) as [HF|HF]; [eexists; split; eauto; split; [left; auto|apply HN]|].
  destruct HS as [|[|(st & HS)]]; try congruence. rewrite HS. cbn. eexists. split; eauto. apply valid_types; auto.
Qed.
Lemma safe_applyRule t r s : good s -> ruleOk r -> pStack s <> [] ->
  ok (fun used s' => good s' /\ topOk s' /\ (t = None -> used = true)) (applyRule c t r s).
Proof.
  intros G HR HS. unfold applyRule. destruct (pStack s) as [|n st] eqn:ES; [congruence|].
  assert (NO : nodeOk n) by (destruct G; rewrite ES in *; inversion gd_stack0; auto).
  destruct (next1_ok r n HR NO) as (n' & EN & NO'). unfold next1 in EN. rewrite EN. clear EN.
  set (consumed := (rNode r =? SameNode) && negb (rToken r =? AnyToken) || match t with Some _ => false | None => true end).
  assert (G1 : good (setTop s n')) by (apply good_top; auto).
  assert (N1 : exists m, pStack (setTop s n') = n' :: m) by (eexists; cbn; eauto).
  eapply (ok_bind (fun _ s' => good s' /\ exists m rest, pStack s' = m :: rest)).
  - destruct (Z.eqb_spec (rNode r) SameNode) as [HE|HE]; cbn [negb].
    + destruct consumed; [|cbn; destruct N1; eauto]. unfold handleNodeToken. destruct t as [t|]; [|cbn; split; auto; destruct N1; eauto].
      destruct N1 as (m & EM). rewrite EM.
      destruct (isSideToken (cType c) g (Some t)); [cbn; split; [apply good_top; auto|eauto]|].
      eapply ok_bind; [apply safe_handleNodeSides; auto|]. cbn beta. intros _ s1 [G2 S2].
      eapply ok_weak; [apply safe_handleTokens|]. cbn beta. intros _ s2 H2. split; [eapply good_same; eauto|].
      destruct H2. rewrite sn_stack. unfold sameStates in S2. cbn in S2. inversion S2; eauto.
    + eapply ok_weak; [apply safe_pushNode; auto; destruct HR as [_ [|]]; [congruence|auto]|]. cbn beta. intros _ s1 (A & m & rest & B & _). eauto.
  - intros _ s1 (G2 & m & rest & ES1). rewrite ES1. eapply (ok_bind (fun _ s' => good s' /\ topOk s')).
    + destruct (Z.eqb_spec (nState m) FinalState).
      * unfold popNode. rewrite ES1. apply safe_popLoop; auto. apply good_top; auto. destruct G2. rewrite ES1 in *. inversion gd_stack0; auto.
      * cbn. split; auto. unfold topOk. rewrite ES1. auto.
    + cbn beta. intros _ s2 [G3 T3]. split; auto. split; auto. intros ->. unfold consumed. apply orb_true_r.
Qed.

(** ** Tokens *)
Definition tokensOnly (s s' : pstate) : Prop := good s' /\ pStack s' = pStack s /\ pApplied s' = pApplied s.
Lemma to_refl s : good s -> tokensOnly s s. Proof. split; auto. Qed.
Lemma to_trans a b d : tokensOnly a b -> tokensOnly b d -> tokensOnly a d.
Proof. intros (_ & A & B) (C & D & F). split; auto. split; congruence. Qed.
Lemma to_same a b : good a -> sameN a b -> tokensOnly a b. Proof. intros G H. pose proof (good_same _ _ H G). destruct H. split; auto. Qed.
(** also when it fails *)
Definition ok2 {A} (s : pstate) (P : A -> pstate -> Prop) (m : res A) : Prop :=
  match m with Done a s' => P a s' | Fail _ s' => tokensOnly s s' | Panic => False | NoFuel _ => True end.
Lemma ok2_bind {A B} s (P : A -> pstate -> Prop) (Q : B -> pstate -> Prop) m k :
  ok2 s P m -> (forall a s, P a s -> ok2 s Q (k a s)) -> (forall a s1, P a s1 -> tokensOnly s s1) -> ok2 s Q (bind m k).
Proof. destruct m as [a s1|e s1| |s1]; cbn; auto. intros H1 H2 H3. specialize (H2 _ _ H1). specialize (H3 _ _ H1). destruct (k a s1); cbn in *; auto. eapply to_trans; eauto. Qed.
Lemma ok2_weak {A} s s0 (P Q : A -> pstate -> Prop) m : ok2 s P m -> tokensOnly s0 s -> (forall a s, P a s -> Q a s) -> ok2 s0 Q m.
Proof. destruct m; cbn; auto. intros. eapply to_trans; eauto. Qed.
Lemma ok2_ok {A} s (P : A -> pstate -> Prop) m : ok2 s P m -> ok P m.
Proof. destruct m; cbn; auto. Qed.
Lemma good_log s ev : good s -> good (log ev s). Proof. intros []. constructor; auto. Qed.
Lemma safe_ret s s0 (e : option E) : good s -> sameN s s0 -> ok2 s (fun _ s' => sameN s s') (ret e s0).
Proof. intros G H. destruct e; cbn; auto. pose proof (good_same _ _ H G). destruct H. split; [apply good_log; auto|]. auto. Qed.
Lemma safe_checkCtx s : good s -> ok2 s (fun _ s' => sameN s s') (checkCtx c s).
Proof. intros G. unfold checkCtx. destruct (cCtx c (pWorld s)) as [w e]. apply safe_ret; auto. sn. Qed.
Lemma firstHook_ok (hooks : list (option (tokenHook (Tok:=Tok) (Src:=Src) (W:=W) (E:=E)))) : forall tts, (forall i, In i tts -> 0 <= i + tokenHooksOffset < zlen hooks) -> exists h, firstHook hooks tts = Some h.
Proof.
  induction tts as [|i r IH]; intros H; cbn [firstHook]; eauto. destruct (zget_in hooks (i + tokenHooksOffset)) as [h ->]; [apply H; left; auto|]. cbn [obind].
  destruct h; eauto. apply IH. intros; apply H; right; auto.
Qed.
Lemma hookFor_ok hooks t : known t -> 3 <= zlen hooks -> exists h, hookFor c hooks t = Some h.
Proof.
  intros HK HL. unfold hookFor, knownToken in *. assert (HO : tokenHooksOffset = 3) by reflexivity. assert (HE : EoiTokenType = -3) by reflexivity.
  destruct (Z.ltb_spec (cType c t) 0) as [HN|HN]; cbn [obind].
  - apply firstHook_ok. intros i [<-|[]]. lia.
  - destruct (zget_in (gTokens g) (cType c t)) as [d ->]; [lia|]. cbn [obind]. apply firstHook_ok. intros i HI. rewrite HO in *.
    apply in_app_or in HI as [HI|HI]; [|apply in_app_or in HI as [HI|HI]].
    + destruct (hasFlag (gtFlags d) NoLiteralsToken); [destruct HI|]. destruct (cLiterals c (cText c t)) as [j|] eqn:EL; [|destruct HI].
      apply (st_literals c ST) in EL. destruct (Z.leb_spec j (zlen hooks - 3 - 1)); [|destruct HI]. destruct HI as [<-|[]]. lia.
    + destruct (Z.leb_spec (cType c t) (zlen hooks - 3 - 1)); [|destruct HI]. destruct HI as [<-|[]]. lia.
    + destruct HI as [<-|[]]. unfold anyOffset. lia.
Qed.
Lemma safe_handleToken t layer hooks s : good s -> optKnown t -> 3 <= zlen hooks -> ok2 s (fun x s' => sameN s s' /\ (t = None -> fst x = true)) (handleToken c t layer hooks s).
Proof.
  intros G HK HL. unfold handleToken. destruct t as [tok|]; [|cbn; split; [sn|auto]].
  eapply ok2_bind; [apply safe_checkCtx; auto| |intros a s1 H; cbn in H; apply to_same; auto]. cbn beta. intros _ s1 H1. pose proof (good_same _ _ H1 G) as G1.
  destruct (hookFor_ok hooks tok (HK _ eq_refl) HL) as [[hook|] ->].
  - destruct (runHook c _ _ _ _) as [[tc w] [[emit extra] e]]. eapply ok2_bind; [apply (safe_ret s1 (setWorld s1 (restore tc w))); [auto|sn]| |intros a s2 H; cbn in H; apply to_same; auto].
    cbn beta. intros _ s2 H2. cbn. split; [|discriminate]. eapply sameN_trans; [exact H1|]. eapply sameN_trans; [exact H2|]. sn.
  - cbn. split; [|discriminate]. eapply sameN_trans; [exact H1|]. sn.
Qed.
Lemma good_queue s layer q : good s -> Forall known q -> good (setQueue s layer q).
Proof. intros [] H. constructor; auto. cbn. apply Forall_upd; auto. Qed.
Lemma queue_known s layer : good s -> Forall known (nth layer (pQueues s) []).
Proof. intros [_ H _ _]. revert layer. induction H; intros [|layer]; cbn; auto. Qed.
Lemma safe_appendExtra layer : forall extra s, good s -> ok2 s (fun _ s' => tokensOnly s s' /\ pTokens s' = pTokens s) (appendExtra c layer extra s).
Proof.
  induction extra as [|t r IH]; intros s G; cbn [appendExtra]; [cbn; auto using to_refl|].
  destruct (isValidType c (cType c t)) eqn:EV; cbn [negb]; [|cbn; split; [apply good_log; auto|auto]].
  assert (G1 : good (setQueue s layer (nth layer (pQueues s) [] ++ [t]))).
  { apply good_queue; auto. apply Forall_app. split; [apply queue_known; auto|]. constructor; auto. unfold isValidType in EV.
    apply andb_true_iff in EV as [EV _]. apply andb_true_iff in EV as [E1 E2]. apply Z.leb_le in E1. apply Z.ltb_lt in E2. split; auto. }
  assert (T1 : tokensOnly s (setQueue s layer (nth layer (pQueues s) [] ++ [t]))) by (split; auto).
  eapply ok2_weak; [apply IH; auto|auto|]. cbn beta. intros _ s2 [A B]. split; [exact (to_trans _ _ _ T1 A)|]. exact B.
Qed.
(** when any token will do, there is one *)
Definition pulled (types : Z) (s : pstate) (t : option Tok) (s' : pstate) : Prop :=
  tokensOnly s s' /\ optKnown t /\ (types = AllTokenTypes \/ alwaysToken c -> t <> None) /\ pTokens s' = pTokens s.
Lemma pulled_from types s s1 m : tokensOnly s s1 -> pTokens s1 = pTokens s -> ok2 s1 (pulled types s1) m -> ok2 s (pulled types s) m.
Proof.
  intros T P H. eapply ok2_weak; [exact H|auto|]. intros t s2 (A & B & C & D). split; [eapply to_trans; eauto|]. split; auto. split; auto. congruence.
Qed.
Lemma safe_pullToken fuel types : forall hks layer s, good s -> (forall table, In table hks -> In table (cTokenHooks c)) -> ok2 s (pulled types s) (pullToken c fuel types hks layer s).
Proof.
  induction hks as [|hooks hks IH]; intros layer s G HT; cbn [pullToken].
  - destruct (fetchToken c types _) as [src [t e]] eqn:EF.
    assert (HN : e = None -> pulled types s t (log (EvPass layer t) (setWorld s (src, snd (pWorld s))))).
    { intros ->. split; [split; [destruct G; constructor; auto|split; auto]|]. split; [|split; auto].
      - intros t' ->. eapply (st_lexers c ST); eauto.
      - intros [->|AL] ->; [exact (st_any c ST _ _ EF)|exact (AL _ _ _ EF)]. }
    destruct e as [e|]; cbn; auto. split; [destruct G; constructor; auto|auto].
  - assert (HL : 3 <= zlen hooks) by (apply (st_tokenHooks c ST), HT; left; auto).
    assert (HQ : forall s0 t q, good s0 -> nth layer (pQueues s0) [] = t :: q -> pulled types s0 (Some t) (log (EvPass layer (Some t)) (setQueue s0 layer q))).
    { intros s0 t q G0 EQ. pose proof (queue_known s0 layer G0) as X. rewrite EQ in X. inversion X; subst.
      split; [split; [apply good_log, good_queue; auto|split; auto]|]. split; [intros t' H; injection H as <-; auto|]. split; auto. discriminate. }
    destruct (nth layer (pQueues s) []) as [|t q] eqn:EQ; [|apply HQ; auto].
    assert (HP : forall s, good s -> ok2 s (pulled types s) (pullToken c fuel types hks (S layer) s)) by (intros; apply IH; auto; intros; apply HT; right; auto).
    set (pull := pullToken c fuel types hks (S layer)) in *. clearbody pull. clear EQ.
    generalize fuel at 1. intros f. revert s G. induction f as [|f IHf]; intros s G; cbn [pullLoop]; [exact Logic.I|].
    eapply ok2_bind; [apply HP; auto| |intros a s1 H; apply H]. intros t s1 (T1 & K1 & A1 & P1). pose proof (proj1 T1) as G1.
    eapply ok2_bind; [apply safe_handleToken; auto| |intros a s2 H; cbn in H; apply to_same; tauto]. cbn beta. intros [emit extra] s2 [H2 E2]. cbn in E2.
    pose proof (good_same _ _ H2 G1) as G2.
    eapply ok2_bind; [apply safe_appendExtra; auto| |intros a s3 H; cbn in H; tauto]. cbn beta. intros _ s3 (T3 & P3). pose proof (proj1 T3) as G3.
    assert (T03 : tokensOnly s s3) by (eapply to_trans; [exact T1|]; eapply to_trans; [apply to_same; [auto|exact H2]|exact T3]).
    assert (P03 : pTokens s3 = pTokens s) by (rewrite P3; destruct H2; congruence).
    destruct emit.
    + cbn. split; [destruct T03 as (_ & X); split; [apply good_log; auto|auto]|]. split; auto.
    + destruct (nth layer (pQueues s3) []) as [|t' q] eqn:EQ.
      * eapply ok2_weak; [apply IHf; auto|apply to_refl; auto|]. intros t4 s4 (T4 & K4 & A4 & P4). split; [exact (to_trans _ _ _ T03 T4)|]. split; auto. split; auto. congruence.
      * cbn [ok2]. destruct (HQ s3 t' q G3 EQ) as (T4 & K4 & A4 & P4). split; [exact (to_trans _ _ _ T03 T4)|]. split; [auto|]. split; [auto|]. rewrite P4. auto.
Qed.
Lemma safe_nextToken fuel types s : good s ->
  ok2 s (fun t s' => tokensOnly s s' /\ optKnown t /\ (types = AllTokenTypes \/ alwaysToken c -> t <> None)) (nextToken c fuel types s).
Proof.
  intros G. unfold nextToken. destruct (pTokens s) as [|t r] eqn:EP.
  - assert (ok2 s (pulled types s) (nextLoop c fuel types s)) as X.
    { clear EP. revert s G. induction fuel as [|f IH]; intros s G; cbn [nextLoop]; [exact Logic.I|].
      eapply ok2_bind; [apply safe_pullToken; auto| |intros a s1 H; apply H]. intros t s1 (T1 & K1 & A1 & P1). destruct (_ && _); [cbn; split; auto|].
      eapply ok2_weak; [apply IH; apply T1|apply to_refl, T1|]. intros t4 s4 (T4 & K4 & A4 & P4). split; [eapply to_trans; eauto|]. split; auto. split; auto. congruence. }
    eapply ok2_weak; [exact X|apply to_refl; auto|]. intros t s1 (T1 & K1 & A1 & P1). auto.
  - cbn. destruct G as [A B C D]. rewrite EP in C. inversion C as [|? ? (t' & -> & KT) CR]; subst. split; [split; [constructor; auto|auto]|].
    split; [intros t'' HH; injection HH as <-; auto|]. discriminate.
Qed.

(** ** Rules *)
Lemma findRules_safe i st t : zget (gStates g) i = Some st -> optKnown t ->
  exists rs, findRules (cType c) (cText c) (cUpper c) g t st = Some rs /\ Forall ruleOk rs /\
    (rs = [] -> (forall r, ruleOf g i r -> rToken r <> AnyToken)) /\ (gMultiRules g = [] -> (length rs <= 1)%nat).
Proof.
  intros ES HK. pose proof (go_tables c GO) as TO. destruct (proj2 TO i st ES) as (rules & multi & SO & SM).
  assert (IN : forall rs r, findRules (cType c) (cText c) (cUpper c) g t st = Some rs -> In r rs -> ruleOk r).
  { intros rs r EF HI. destruct (findRules_fits c i st t rs r TO ES EF HI) as [(tok & _ & _ & ->)|[_ (HR & _)]].
    - split; [left; reflexivity|left; reflexivity].
    - destruct HR as (st' & rules' & multi' & rs' & A & B & C & D & F).
      assert (IG : In r (gRules g)) by (destruct D; [destruct F as [<-|[]]|]; eapply zslice_In; eauto).
      split; [right; apply (go_state c GO); auto|apply (go_node c GO); auto]. }
  destruct (isSideToken (cType c) g t) eqn:SD.
  - destruct t as [t|]; [|discriminate]. eexists. split; [unfold findRules; rewrite SD; reflexivity|]. split; [|split; [discriminate|cbn; lia]].
    constructor; [|constructor]. split; [left; reflexivity|left; reflexivity].
  - assert (NS : ~ isSide (cType c) g t).
    { intros (tok & -> & F). cbn in SD. apply isSideType_spec in F. congruence. }
    destruct (keys_spec (cType c) (cText c) (cUpper c) g t) as (keys & E1 & K).
    { intros tok ->. specialize (HK tok eq_refl). destruct (Z.lt_ge_cases (cType c tok) 0); auto. right. apply zget_in. unfold knownToken in HK. lia. }
    destruct (rule_lookup_priority (cType c) (cText c) (cUpper c) g st rules multi t keys SO NS) as (rs & E2 & SEL); auto.
    { intros tok ->. specialize (HK tok eq_refl). unfold knownToken in HK. lia. }
    exists rs. split; auto. split; [apply Forall_forall; eauto|]. split.
    + intros -> r (st' & rules' & multi' & rs' & A & B & C & D & F) HA. rewrite ES in A. injection A as <-.
      rewrite (so_rules _ _ _ _ SO) in B. injection B as <-. rewrite (so_multi _ _ _ _ SO) in C. injection C as <-.
      destruct (rule_lookup_unique (cType c) (cText c) (cUpper c) g st rules multi t keys keys [] [] SO K K SEL SEL) as (_ & _ & X). 
      apply (proj1 X eq_refl (rToken r) rs'); auto. rewrite HA. inversion K; subst; cbn; auto.
    + intros HM. assert (multi = []).
      { pose proof (so_multi _ _ _ _ SO) as X. rewrite HM in X. unfold zslice in X. destruct (_ && _); [|discriminate]. injection X as <-. rewrite skipn_nil, firstn_nil. auto. }
      subst multi. clear - SEL. induction SEL as [|k ks rs [r A B|m rs' A B C]|k ks rs A B IH]; cbn; auto. destruct A.
Qed.


Definition bnodeOk (n : nodeRec) : Prop := nState n = FinalState \/ validState (nState n).
Definition brOk (b : branch) : Prop := Forall bnodeOk (bStack b) /\ match bStack b with [] => True | n :: _ => nState n <> FinalState end /\ Forall ruleOk (bRules b).
Lemma dryPop_ok (l : list nodeRec) : Forall bnodeOk l -> Forall bnodeOk (dryPop l) /\ match dryPop l with [] => True | n :: _ => nState n <> FinalState end.
Proof. induction 1 as [|n l A B IH]; cbn [dryPop]; auto. destruct (Z.eqb_spec (nState n) FinalState); auto. Qed.
Lemma dryRule_ok t r b : brOk b -> bStack b <> [] -> ruleOk r -> exists cons st', dryRule c t r (bStack b) = Some (cons, st') /\
  Forall bnodeOk st' /\ match st' with [] => True | n :: _ => nState n <> FinalState end.
Proof.
  intros (A & B & _) HN [HS HR]. destruct (bStack b) as [|n rest]; [congruence|]. unfold dryRule. inversion A as [|? ? A1 A2]; subst.
  assert (X : exists n', (if rState r =? repeatState then Some n else if rState r =? FinalState then Some (setNState n (rState r))
     else do st <- zget (gStates g) (rState r); Some (setNTypes (setNState n (rState r)) (sTypes st))) = Some n' /\ bnodeOk n').
  { destruct (Z.eqb_spec (rState r) repeatState); [eexists; eauto|]. destruct (Z.eqb_spec (rState r) FinalState); [eexists; split; eauto; left; auto|].
    destruct HS as [|[|(st & HS)]]; try congruence. rewrite HS. cbn. eexists. split; eauto. right. exists st. auto. }
  destruct X as (n' & -> & N'). cbn [obind].
  assert (Y : exists st', (if rNode r =? SameNode then Some (n' :: rest) else do nt <- zget (gNodes g) (rNode r); do st <- zget (gStates g) (gnFirst nt);
      Some (mkNodeRec [] [] (sTypes st) (rNode r) (gnFirst nt) :: n' :: rest)) = Some st' /\ Forall bnodeOk st').
  { destruct (Z.eqb_spec (rNode r) SameNode); [eexists; split; eauto|]. destruct HR as [|(nt & HR)]; [congruence|]. rewrite HR. cbn [obind].
    destruct (validFirst _ _ HR) as (st & HF). rewrite HF. cbn. eexists. split; eauto. constructor; [right; exists st; auto|auto]. }
  destruct Y as (st' & -> & Y). cbn [obind]. do 2 eexists. split; [reflexivity|].
  replace (match st' with [] => st' | n0 :: _ => if nState n0 =? FinalState then dryPop st' else st' end) with (dryPop st') by (symmetry; apply dryPop_end). apply dryPop_ok. auto.
Qed.

Definition bgood (store : list branch) (b : nat) : Prop := exists br, nth_error store b = Some br /\ brOk br /\ bRules br <> [].
Record lgood (k : look (Tok:=Tok) (Inst:=Inst)) : Prop := mkLgood {
  lg_next : Forall (bgood (kStore k)) (kNext k);
  lg_queue : Forall (bgood (kStore k)) (kQueue k);
  lg_succ : forall b, kSuccess k = Some b -> bgood (kStore k) b;
  lg_err : forall b, kError k = Some b -> bgood (kStore k) b }.
Lemma bgood_upd store b b' br : (b' < length store)%nat -> brOk br -> bRules br <> [] -> bgood store b \/ b = b' -> bgood (upd store b' br) b.
Proof.
  intros HL H1 H2 HB. unfold bgood. rewrite nth_error_upd by auto. destruct (Nat.eqb_spec b b') as [->|HN]; cbn.
  - eauto.
  - destruct HB; [auto|congruence].
Qed.
Definition mono (k k' : look (Tok:=Tok) (Inst:=Inst)) : Prop := forall b, bgood (kStore k) b -> bgood (kStore k') b.
Lemma lookApply_safe t b r k br : lgood k -> nth_error (kStore k) b = Some br -> brOk br -> bStack br <> [] -> ruleOk r ->
  exists k', lookApply c t b r k = Some k' /\ lgood k' /\ (forall b' br', b' <> b -> nth_error (kStore k) b' = Some br' -> nth_error (kStore k') b' = Some br') /\ mono k k' /\
    (kQueue k' <> [] \/ kNext k' <> [] \/ kSuccess k' <> None).
Proof.
  intros [L1 L2 L3 L4] HB BO BN RO. unfold lookApply. rewrite HB. cbn [obind]. destruct (dryRule_ok t r br BO BN RO) as (cons & st' & -> & D1 & D2). cbn [obind].
  set (br1 := mkBranch st' (bRules br ++ [r])).
  assert (B1 : brOk br1) by (split; [|split]; auto; cbn; apply Forall_app; split; auto; apply BO).
  assert (N1 : bRules br1 <> []) by (cbn; destruct (bRules br); discriminate).
  assert (HL : (b < length (kStore k))%nat) by (apply nth_error_Some; congruence).
  assert (UP : forall b', bgood (kStore k) b' \/ b' = b -> bgood (upd (kStore k) b br1) b') by (intros; apply bgood_upd; auto).
  assert (OT : forall b' br', b' <> b -> nth_error (kStore k) b' = Some br' -> nth_error (upd (kStore k) b br1) b' = Some br').
  { intros b' br' HN HE. rewrite nth_error_upd by auto. rewrite (proj2 (Nat.eqb_neq b' b)) by auto. auto. }
  assert (UL : forall l, Forall (bgood (kStore k)) l -> Forall (bgood (upd (kStore k) b br1)) l) by (intros l X; eapply Forall_impl; [|exact X]; auto).
  assert (UB : Forall (bgood (upd (kStore k) b br1)) [b]) by (constructor; auto).
  eexists. split; [reflexivity|]. destruct (match st' with [] => true | _ => false end || cons); [destruct cons|]; cbn; (split; [constructor; cbn; auto|split; [auto|split; [intros b' HB'; apply UP; auto|]]]).
  - apply Forall_app. auto.
  - right. left. destruct (kNext k); discriminate.
  - intros b' HE. injection HE as <-. auto.
  - right. right. discriminate.
  - apply Forall_app. auto.
  - left. destruct (kQueue k); discriminate.
Qed.
Definition prog1 (k : look (Tok:=Tok) (Inst:=Inst)) : Prop := kQueue k <> [] \/ kNext k <> [] \/ kSuccess k <> None \/ kError k <> None.
Lemma lookSplit_safe t br : brOk br -> bStack br <> [] -> forall ids rs k, lgood k -> NoDup ids -> Forall ruleOk rs ->
  (forall b, In b ids -> nth_error (kStore k) b = Some br) -> 
  exists k', lookSplit c t ids rs k = Some k' /\ lgood k' /\ mono k k' /\ (ids <> [] -> rs <> [] -> prog1 k') /\ (prog1 k -> prog1 k').
Proof.
  intros BO BN. induction ids as [|b ids IH]; intros rs k LG ND RO HB; cbn [lookSplit]; [eexists; split; eauto; split; auto; split; [intros ?; auto|]; split; auto; congruence|].
  destruct rs as [|r rs]; [eexists; split; eauto; split; auto; split; [intros ?; auto|]; split; auto; congruence|].
  inversion ND; subst. inversion RO; subst.
  destruct (lookApply_safe t b r k br LG (HB b (or_introl eq_refl)) BO BN H3) as (k1 & -> & L1 & O1 & M1 & P1). cbn [obind].
  destruct (IH rs k1 L1 H2 H4) as (k2 & -> & L2 & M2 & _ & P2).
  { intros b' HI. apply O1; [|apply HB; right; auto]. intros ->. auto. }
  assert (prog1 k1) by (unfold prog1; tauto). eexists. split; eauto. split; auto. split; [intros ? ?; auto|auto].
Qed.
Lemma bgood_app store more b : bgood store b -> bgood (store ++ more) b.
Proof. intros (br & A & B). exists br. split; auto. rewrite nth_error_app1; auto. apply nth_error_Some. congruence. Qed.
(** a branch about to be processed: has rules already or will get one *)
Lemma lookStep_safe t b br k rs : nth_error (kStore k) b = Some br -> brOk br -> bStack br <> [] -> rs <> [] -> Forall ruleOk rs -> lgood k ->
  exists k', lookSplit c t (b :: seq (length (kStore k)) (length rs - 1)) rs (mkLook (kStore k ++ repeat br (length rs - 1)) (kNext k) (kQueue k) (kSuccess k) (kError k)) = Some k' /\ lgood k' /\ mono k k' /\ prog1 k'.
Proof.
  intros HB BO BN RN RO [L1 L2 L3 L4].
  assert (HL : (b < length (kStore k))%nat) by (apply nth_error_Some; congruence).
  edestruct (lookSplit_safe t br BO BN (b :: seq (length (kStore k)) (length rs - 1)) rs (mkLook (kStore k ++ repeat br (length rs - 1)) (kNext k) (kQueue k) (kSuccess k) (kError k)))
    as (k' & E' & L' & M' & P' & _); auto.
  - constructor; cbn; auto; try (intros; apply bgood_app; auto); eapply Forall_impl; try eassumption; intros; apply bgood_app; auto.
  - constructor; [|apply seq_NoDup]. rewrite in_seq. lia.
  - intros b' [<-|HI]; cbn.
    + rewrite nth_error_app1; auto.
    + apply in_seq in HI. rewrite nth_error_app2 by lia. apply nth_error_repeat. lia.
  - exists k'. split; auto. split; auto. split; [intros ? ?; apply M'; cbn; apply bgood_app; auto|]. apply P'; [discriminate|auto].
Qed.
Definition roundOk (k : look (Tok:=Tok) (Inst:=Inst)) (x : option (option look)) : Prop :=
  match x with None => True | Some None => False | Some (Some k') => lgood k' /\ mono k k' /\ prog1 k' /\ kQueue k' = [] end.
Lemma roundOk_mono k1 k2 x : mono k1 k2 -> roundOk k2 x -> roundOk k1 x.
Proof. destruct x as [[k'|]|]; cbn; auto. intros M (A & B & C). split; auto. split; auto. intros b HB. auto. Qed.
Lemma lookStep_ok t f b br k n ls : (forall k, lgood k -> prog1 k -> roundOk k (lookBranch c f t k)) -> optKnown t ->
  kQueue k <> [] -> hd_error (kQueue k) = Some b -> nth_error (kStore k) b = Some br -> bStack br = n :: ls -> brOk br ->
  (bRules br <> [] \/ (forall st, zget (gStates g) (nState n) = Some st -> findRules (cType c) (cText c) (cUpper c) g t st <> Some [])) ->
  lgood (mkLook (kStore k) (kNext k) (tl (kQueue k)) (kSuccess k) (kError k)) -> roundOk k (lookBranch c (S f) t k).
Proof.
  intros IH HK QN HQ HB EB BO BR LG. cbn [lookBranch]. destruct (kQueue k) as [|b' q] eqn:EQ; [congruence|]. cbn in HQ. injection HQ as ->. cbn [kStore tl] in *. rewrite HB, EB.
  destruct BO as (B1 & B2 & B3). rewrite EB in B1, B2. inversion B1; subst. destruct H1 as [|(st & HS)]; [congruence|]. rewrite HS. cbn [obind].
  destruct (findRules_safe _ _ t HS HK) as (rs & EF & RO & _). rewrite EF.
  destruct rs as [|r rs]; [|remember (r :: rs) as rr eqn:ER].
  - destruct BR as [BR|BR]; [|exfalso; eapply BR; eauto]. apply (roundOk_mono _ (mkLook (kStore k) (kNext k) q (kSuccess k) (Some b))); [intros ? ?; auto|].
    apply IH; [|right; right; right; discriminate]. destruct LG. constructor; cbn in *; auto. intros b0 HE. injection HE as <-. exists br. repeat split; auto; rewrite EB; auto.
  - destruct (lookStep_safe t b br (mkLook (kStore k) (kNext k) q (kSuccess k) (kError k)) rr) as (k' & E' & L' & M' & P'); auto.
    + split; [rewrite EB; auto|split; [rewrite EB; auto|auto]].
    + rewrite EB. discriminate.
    + rewrite ER. discriminate.
    + cbn [kStore kNext kQueue kSuccess kError] in E' |- *. rewrite E'. destruct rr; [discriminate|]. eapply roundOk_mono; [|apply IH; auto]. exact M'.
Qed.
Lemma lookBranch_safe t : optKnown t -> forall fuel k, lgood k -> prog1 k -> roundOk k (lookBranch c fuel t k).
Proof.
  intros HK. induction fuel as [|f IH]; intros k LG PG; [exact Logic.I|]. destruct (kQueue k) as [|b q] eqn:EQ.
  - cbn [lookBranch]. rewrite EQ. cbn. split; auto. split; [intros ? ?; auto|auto].
  - pose proof LG as [L1 L2 L3 L4]. rewrite EQ in L2. inversion L2 as [|? ? (br & HB & BO & BR) LQ]; subst.
    destruct (bStack br) as [|n ls] eqn:EB.
    + cbn [lookBranch]. rewrite EQ. cbn [kStore]. rewrite HB, EB. apply (roundOk_mono _ (mkLook (kStore k) (kNext k) q (Some b) (kError k))); [intros ? ?; auto|].
      apply IH; [|right; right; left; discriminate]. constructor; cbn; auto. intros b' HE. injection HE as <-. exists br. auto.
    + eapply lookStep_ok; eauto; rewrite EQ; [discriminate|reflexivity|]. constructor; cbn; auto.
Qed.
Definition roundOk2 (x : option (option (look (Tok:=Tok) (Inst:=Inst) * bool))) : Prop :=
  match x with None => True | Some None => False | Some (Some (k', _)) => lgood k' /\ prog1 k' /\ kQueue k' = [] end.
Lemma lookRound_safe fuel t : optKnown t -> forall branches i k lost, lgood k -> Forall (bgood (kStore k)) branches -> kQueue k = [] -> branches <> [] \/ prog1 k ->
  roundOk2 (lookRound c fuel t i branches k lost).
Proof.
  intros HK. induction branches as [|b0 rest IH]; intros i k lost LG FB EQ PG; cbn [lookRound].
  - cbn. destruct PG as [|PG]; [congruence|auto].
  - destruct (match nth_error (kNext k) i with Some b => (b, true) | None => (b0, lost) end) as [b lost'] eqn:EN.
    inversion FB as [|? ? FB1 FB2]; subst.
    assert (HB : bgood (kStore k) b).
    { destruct (nth_error (kNext k) i) as [b'|] eqn:E1; injection EN as <- <-; auto. apply nth_error_In in E1. destruct LG. rewrite Forall_forall in lg_next0. auto. }
    pose proof (lookBranch_safe t HK fuel (mkLook (kStore k) (kNext k) [b] (kSuccess k) (kError k))) as X.
    destruct (lookBranch c fuel t _) as [[k1|]|]; cbn; auto.
    + destruct X as (L1 & M1 & P1 & Q1); [destruct LG; constructor; cbn; auto|left; discriminate|]. apply IH; auto. eapply Forall_impl; [|exact FB2]. intros; apply M1; auto.
    + apply X; [destruct LG; constructor; cbn; auto|left; discriminate].
Qed.
Lemma nth_error_firstn_lt {A} (l : list A) : forall n m, (m < n)%nat -> nth_error (firstn n l) m = nth_error l m.
Proof. induction l as [|a l IH]; intros [|n] m H; try lia; destruct m; cbn; auto. apply IH. lia. Qed.
Lemma nth_error_skipn_add {A} (l : list A) : forall n m, nth_error (skipn n l) m = nth_error l (n + m).
Proof. induction l as [|a l IH]; intros [|n] m; cbn; auto. destruct m; auto. Qed.
Definition lookOut (s : pstate) (x : list (option Tok) * list rule) (s' : pstate) : Prop :=
  tokensOnly s s' /\ snd x <> [] /\ Forall ruleOk (snd x) /\ Forall someKnown (tl (fst x)).
Lemma someKnown_intro t : optKnown t -> t <> None -> someKnown t.
Proof. destruct t as [t|]; [|congruence]. intros H _. exists t. auto. Qed.
Lemma lookLoop_safe : alwaysToken c -> forall fuel t tokens k s, optKnown t -> good s ->
  (forall fuel lost, roundOk2 (lookRound c fuel t 0 (kNext k) (mkLook (kStore k) [] [] None (kError k)) lost)) ->
  Forall someKnown (tl (tokens ++ [t])) ->
  ok2 s (lookOut s) (lookLoop c fuel t tokens k s).
Proof.
  intros AL. induction fuel as [|f IH]; intros t tokens k s HK G HR HT; cbn [lookLoop]; [exact Logic.I|]. specialize (HR (S f) (pLost s)).
  destruct (lookRound c (S f) t 0 (kNext k) _ (pLost s)) as [[[k1 lost]|]|]; [|destruct HR|exact Logic.I]. cbn in HR. destruct HR as (LG & PG & QG).
  set (s0 := setLost s lost). assert (G0 : good s0) by (destruct G; constructor; auto).
  set (fin := fun s2 : pstate => match match kNext k1 with b :: _ => Some b | [] => match kSuccess k1 with Some b => Some b | None => kError k1 end end with
      | None => Panic | Some b => match nth_error (kStore k1) b with Some br => Done (tokens ++ [t], bRules br) s2 | None => Panic end end).
  assert (FIN : forall s2, tokensOnly s s2 -> ok2 s (lookOut s) (fin s2)).
  { intros s2 T2. unfold fin.
    assert (X : exists b, match kNext k1 with b :: _ => Some b | [] => match kSuccess k1 with Some b => Some b | None => kError k1 end end = Some b /\ bgood (kStore k1) b).
    { destruct LG as [L1 L2 L3 L4]. unfold prog1 in PG. destruct (kNext k1) as [|b l]; [|exists b; split; auto; inversion L1; auto].
      destruct (kSuccess k1) as [b|]; [exists b; auto|]. destruct (kError k1) as [b|]; [exists b; auto|]. destruct PG as [|[|[|]]]; congruence. }
    destruct X as (b & -> & (br & -> & BO & BR)). cbn. split; auto. split; auto. split; auto. apply BO. }
  assert (T0 : tokensOnly s s0) by (split; auto).
  destruct (length (kNext k1) <=? 1)%nat eqn:LE; [exact (FIN s0 T0)|]. destruct (lookTypes (kStore k1) (kNext k1) =? 0); [exact (FIN s0 T0)|].
  pose proof (safe_nextToken (S f) (lookTypes (kStore k1) (kNext k1)) s0 G0) as HN.
  destruct (nextToken c (S f) (lookTypes (kStore k1) (kNext k1)) s0) as [t2 s2|e2 s2| |s2]; cbn in HN; auto.
  - destruct HN as (T2 & K2 & N2). assert (T02 : tokensOnly s s2) by exact (to_trans _ _ _ T0 T2).
    eapply ok2_weak; [apply IH; [auto|apply T2| |]|auto|].
    + intros fuel lost'. apply lookRound_safe; auto.
      * destruct LG. constructor; cbn; auto. discriminate.
      * apply LG.
      * left. intros X. rewrite X in LE. discriminate.
    + destruct tokens as [|x tokens]; cbn [app tl] in *; [constructor; auto; apply someKnown_intro; auto|].
      apply Forall_app. split; auto. constructor; auto. apply someKnown_intro; auto.
    + intros x s3 (A & B). split; [exact (to_trans _ _ _ T02 A)|auto].
  - apply FIN. exact (to_trans _ _ _ T0 HN).
Qed.
Lemma safe_nextRule fuel t i st s n ns : good s -> optKnown t -> pStack s = n :: ns -> nState n = i -> zget (gStates g) i = Some st ->
  ok (fun r s' => good s' /\ pStack s' = pStack s /\ match r with Some r => ruleOk r | None => forall r, ruleOf g i r -> rToken r <> AnyToken end) (nextRule c fuel t st s).
Proof.
  intros G HK EP EI ES. unfold nextRule. destruct (pApplied s) as [|r rest] eqn:EA.
  2:{ cbn. destruct G as [A B C D]. rewrite EA in D. inversion D; subst. split; [constructor; auto|auto]. }
  destruct (findRules_safe i st t ES HK) as (rs & EF & RO & RN & RM). rewrite EF.
  destruct rs as [|r1 [|r2 rs]]; [cbn; auto|inversion RO; cbn; auto|].
  destruct NIL as [AL|M0]; [|specialize (RM M0); cbn in RM; lia].
  assert (X : ok2 s (lookOut s) (resolveConflict c fuel t s)).
  { unfold resolveConflict. rewrite EP. set (b0 := mkBranch [mkNodeRec [] [] (nTypes n) (nIndex n) (nState n)] []).
    apply lookLoop_safe; auto; [|cbn; constructor]. intros fuel' lost. cbn [kNext kStore kError lookRound nth_error].
    assert (V : validState (nState n)) by (exists st; congruence).
    assert (X : roundOk (mkLook [b0] [] [0%nat] None None) (lookBranch c fuel' t (mkLook [b0] [] [0%nat] None None))).
    { destruct fuel' as [|f']; [exact Logic.I|]. eapply (lookStep_ok t f' 0 b0); auto.
      - apply lookBranch_safe; auto.
      - discriminate.
      - reflexivity.
      - split; [|split]; cbn; auto. { constructor; auto. right. auto. } { apply valid_nonfinal. auto. }
      - right. cbn. intros st' ES'. assert (st' = st) by congruence. subst. rewrite EF. discriminate.
      - constructor; cbn; auto; discriminate. }
    cbn [kStore kNext kSuccess kError]. destruct (lookBranch c fuel' t (mkLook [b0] [] [0%nat] None None)) as [[k1|]|]; cbn in X |- *; tauto. }
  apply ok2_ok in X. eapply ok_bind; [exact X|]. intros [tokens rules] s1 (T1 & R1 & R2 & R3). cbn in R1, R2, R3. destruct rules as [|r0 rest]; [congruence|].
  destruct T1 as (G1 & T1 & T2). cbn. inversion R2; subst. split; [|auto]. destruct G1. constructor; auto. cbn. apply Forall_app. auto.
Qed.
Lemma expected_ok i st : zget (gStates g) i = Some st -> (forall r, ruleOf g i r -> rToken r <> AnyToken) -> exists d, getExpectedToken c st = Some d.
Proof.
  intros ES HN. destruct (go_named c GO i st ES) as [(r & A & B)|HD]; [exfalso; eapply HN; eauto|].
  destruct (proj2 (go_tables c GO) i st ES) as (rules & multi & SO & SM). pose proof (so_rules _ _ _ _ SO) as E1. pose proof (so_multi _ _ _ _ SO) as E2.
  assert (T0 : exists d, zget (gTokens g) 0 = Some d) by (pose proof (go_tokens c GO); destruct (gTokens g); [congruence|eexists; reflexivity]).
  assert (R1 : forall j r, sLow st <= j < sHigh st -> zget (gRules g) j = Some r -> exists d, zget (gTokens g) (rToken r) = Some d).
  { intros j r HJ HZ. apply HD. exists st, rules, multi, [r]. repeat split; auto; [|left; auto]. constructor; auto.
    unfold zslice in E1. destruct ((0 <=? sLow st) && (sLow st <=? sHigh st) && (sHigh st <=? zlen (gRules g))) eqn:EB; [|discriminate]. injection E1 as <-.
    apply andb_true_iff in EB as [EB B3]. apply andb_true_iff in EB as [B1 B2]. apply Z.leb_le in B1, B2, B3. unfold zget in HZ. destruct (Z.ltb_spec j 0); [lia|].
    apply (nth_error_In _ (Z.to_nat (j - sLow st))). rewrite nth_error_firstn_lt by lia. rewrite nth_error_skipn_add. rewrite <- HZ. f_equal. lia. }
  assert (L1 : forall j, sLow st <= j < sHigh st -> exists r, zget (gRules g) j = Some r).
  { intros j HJ. apply zget_in. unfold zslice in E1. destruct ((0 <=? sLow st) && (sLow st <=? sHigh st) && (sHigh st <=? zlen (gRules g))) eqn:EB; [|discriminate].
    apply andb_true_iff in EB as [EB B3]. apply andb_true_iff in EB as [B1 B2]. apply Z.leb_le in B1, B2, B3. lia. }
  unfold getExpectedToken.
  assert (X : exists index, (if sLow st <? sHigh st then do r <- zget (gRules g) (sLow st); if (rToken r <? 0) && (sLow st + 1 <? sHigh st)
      then do r <- zget (gRules g) (sLow st + 1); Some (rToken r) else Some (rToken r) else Some 0) = Some index /\ exists d, zget (gTokens g) index = Some d).
  { destruct (Z.ltb_spec (sLow st) (sHigh st)); [|eauto]. destruct (L1 (sLow st) ltac:(lia)) as (r & EZ). rewrite EZ. cbn [obind].
    destruct (_ && _) eqn:EB; [|eexists; split; eauto; eapply R1; eauto; lia]. apply andb_true_iff in EB as [_ EB]. apply Z.ltb_lt in EB.
    destruct (L1 (sLow st + 1) ltac:(lia)) as (r' & EZ'). rewrite EZ'. cbn [obind]. eexists. split; eauto. eapply R1; eauto. lia. }
  destruct X as (index & -> & XD). cbn [obind]. destruct (Z.ltb_spec (sLowMulti st) (sHighMulti st)) as [HM|HM]; cbn [obind]; auto.
  unfold zslice in E2. destruct ((0 <=? sLowMulti st) && (sLowMulti st <=? sHighMulti st) && (sHighMulti st <=? zlen (gMultiRules g))) eqn:EB; [|discriminate]. injection E2 as E2.
  apply andb_true_iff in EB as [EB B3]. apply andb_true_iff in EB as [B1 B2]. apply Z.leb_le in B1, B2, B3.
  destruct (zget_in (gMultiRules g) (sLowMulti st) ltac:(lia)) as (m & EM). rewrite EM. cbn [obind]. destruct (Z.ltb_spec (mToken m) index); [|auto].
  assert (IM : In m multi).
  { rewrite <- E2. apply (nth_error_In _ 0). rewrite nth_error_firstn_lt by lia. rewrite nth_error_skipn_add. unfold zget in EM. destruct (_ <? 0); [discriminate|]. rewrite <- EM. f_equal. lia. }
  destruct (so_range _ _ _ _ SO m IM) as (rs & ER & NR). destruct rs as [|r rs]; [congruence|].
  assert (RT : rToken r = mToken m) by (eapply SM; eauto; left; auto). rewrite <- RT. apply HD. exists st, rules, multi, (r :: rs).
  split; auto. split; [apply SO|]. split; [apply SO|]. split; [|left; auto]. apply (HR_many _ _ _ _ m); auto.
Qed.
Lemma safe_syntaxError fuel t i st s : good s -> optKnown t -> zget (gStates g) i = Some st -> (forall r, ruleOf g i r -> rToken r <> AnyToken) ->
  ok (fun _ _ => False) (syntaxError c fuel t st s).
Proof.
  intros G HK ES HN. unfold syntaxError. apply (ok_bind (fun t _ => t <> None)).
  - destruct t; [cbn; discriminate|]. eapply ok_weak; [eapply ok2_ok, safe_nextToken; auto|]. cbn. intros a s1 (_ & _ & A). auto.
  - intros t2 s2 NT. destruct (expected_ok i st ES HN) as (d & ->). destruct t2; [exact Logic.I|congruence].
Qed.
Lemma safe_parseLoop : forall fuel used t s, good s -> topOk s -> optKnown t -> (pStack s = [] -> t = None -> used = true) ->
  ok (fun x s' => good s' /\ (snd x = None -> fst x = true)) (parseLoop c fuel used t s).
Proof.
  induction fuel as [|f IH]; intros used t s G TO HK HU; cbn [parseLoop]; [exact Logic.I|]. destruct (pStack s) as [|n ns] eqn:ES; [cbn; auto|].
  destruct used.
  - eapply ok_bind; [eapply ok2_ok, safe_checkCtx; auto|]. cbn beta. intros _ s1 H1. pose proof (good_same _ _ H1 G) as G1.
    eapply ok_bind; [eapply ok2_ok, safe_nextToken; auto|]. cbn beta. intros t2 s2 (T2 & K2 & _).
    assert (E2 : pStack s2 = n :: ns) by (destruct T2 as (_ & A & _); destruct H1; congruence).
    apply IH; [apply good_log, T2| |auto|].
    + unfold topOk in *. cbn. rewrite E2. rewrite ES in TO. auto.
    + cbn. rewrite E2. discriminate.
  - assert (V : validState (nState n)).
    { unfold topOk in TO. rewrite ES in TO. destruct G as [GS _ _ _]. rewrite ES in GS. inversion GS as [|? ? [[X|X] _] _]; subst; [congruence|auto]. }
    destruct V as (st & V). rewrite V. eapply ok_bind; [eapply safe_nextRule; eauto|]. cbn beta. intros [r|] s1 (G1 & E1 & HR).
    + eapply ok_bind; [apply safe_applyRule; auto; rewrite E1, ES; discriminate|]. cbn beta. intros used s2 (G2 & T2 & U2). apply IH; auto.
    + eapply ok_weak; [eapply safe_syntaxError; eauto|]. intros a s2 [].
Qed.
Lemma safe_restLoop : forall fuel s, good s -> ok (fun _ _ => True) (restLoop c fuel s).
Proof.
  induction fuel as [|f IH]; intros s G; cbn [restLoop]; [exact Logic.I|]. eapply ok_bind; [eapply ok2_ok, safe_nextToken; auto|]. cbn beta. intros t s1 (T1 & K1 & A1).
  destruct t as [t|]; [|exfalso; apply A1; auto]. destruct (_ =? _); [exact Logic.I|]. destruct (isSideType g (cType c t)); [|exact Logic.I]. apply IH. apply good_log, T1.
Qed.
Lemma safe_parseFrom fuel w t0 : parseFrom c fuel w t0 <> Panic.
Proof.
  assert (X : ok (fun _ _ => True) (parseFrom c fuel w t0)).
  { unfold parseFrom, start. set (s0 := mkP w [] (repeat [] (length (cTokenHooks c))) [] None [] [] false).
    assert (G0 : good s0) by (constructor; cbn; auto; induction (length (cTokenHooks c)); cbn; auto).
    eapply ok_bind; [apply safe_pushNode; auto; apply (go_root c GO)|]. cbn beta. intros _ s1 (G1 & n & rest & ES & HN). unfold parse.
    eapply ok_bind; [apply safe_parseLoop; auto|].
    - unfold topOk. rewrite ES. auto.
    - intros t X. discriminate.
    - cbn beta. intros [used t] s2 [G2 U2]. cbn in U2.
      assert (Y : exists s3, (if used then Some s2 else match t with None => None | Some t => Some (if cType c t =? EoiTokenType then s2
          else setWorld s2 (cUnread c t (fst (pWorld s2)), snd (pWorld s2))) end) = Some s3 /\ good s3).
      { destruct used; [eauto|]. destruct t as [t|]; [|specialize (U2 eq_refl); discriminate]. eexists. split; [reflexivity|]. destruct (_ =? _); auto. destruct G2; constructor; auto. }
      destruct Y as (s3 & -> & G3). eapply (ok_bind (fun _ _ => True)); [|intros; exact Logic.I]. destruct (_ && _); [apply safe_restLoop; auto|exact Logic.I]. }
  intros HE. rewrite HE in X. exact X.
Qed.
End P.
