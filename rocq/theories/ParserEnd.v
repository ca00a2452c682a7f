(** Tokens from the source to the tree. *)
From Coq Require Import ZArith List Bool Lia Arith.
From Verif Require Import Base BaseProofs Grammar Rules Parser ParserSpec ParserProofs ParserInv ParserStream ParserLook ParserErr ParserMain ParserWorld ParserFlowSpec RulesSpec.
Import ListNotations.
Open Scope Z_scope.

Section P.
Context {Tok Src W E Inst R : Type}.
Variable c : config Tok Src W E Inst R.
Notation g := (cGrammar c).
Notation pstate := (pstate Tok Src W E Inst R).
Notation event := (event Tok E Inst R).
Notation res := (res Tok Src W E Inst R).
Notation tree := (tree Tok Inst R).
Notation clog := (clog (Tok:=Tok) (Src:=Src) (W:=W) (E:=E) (Inst:=Inst) (R:=R)).
Notation hooked := (hookedIn (cNodeHooks c)).
Notation trace := (trace (Tok:=Tok) (E:=E) (Inst:=Inst) (R:=R) hooked).
Notation treeOk := (treeOk (Tok:=Tok) (R:=R) hooked).
Notation nHooksC := (length (cTokenHooks c)).
Notation visible := (visible c).

Lemma sideToken_ok t : sideToken c t = isSideType g (cType c t).
Proof.
  unfold sideToken, isSideType. destruct (zget (gTokens g) (cType c t)) as [d|] eqn:EZ; [|rewrite andb_false_r; auto].
  apply zget_Some_inv in EZ. destruct EZ as [H1 H2]. rewrite (proj2 (Z.leb_le _ _)), (proj2 (Z.ltb_lt _ _)); auto; lia.
Qed.
Lemma visible_keep t : visibleO c t = keep c t.
Proof. destruct t as [t|]; cbn; auto. unfold ParserFlowSpec.visible. rewrite sideToken_ok, orb_comm. auto. Qed.
Lemma somes_visible l : somes (filter (keep c) l) = filter visible (somes l).
Proof.
  induction l as [|[t|] l IH]; cbn [filter somes flat_map]; auto.
  - pose proof (visible_keep (Some t)) as H. cbn [visibleO] in H. cbn [app filter]. rewrite H. destruct (keep c (Some t)); cbn; fold (somes (filter (keep c) l)); fold (somes l); congruence.
Qed.

(** Peeking leaves the source where it was. *)
Lemma runHook_quiet above : forall p, quietProg p -> forall tc w tc' w' r, runHook c above p tc w = (tc', w', r) ->
  fst (restore tc' w') = fst (restore tc w).
Proof.
  induction 1 as [emit extra e|k HK IH|f k HF HK IH]; intros tc w tc' w' r; cbn [runHook].
  - intros H. injection H as <- <- _. auto.
  - destruct (peekToken c above tc (fst w)) as [[tc1 src1] x] eqn:EP. intros H. rewrite (IH _ _ _ _ _ _ H).
    unfold peekToken in EP. unfold restore. destruct tc as [d [snap|]]; cbn [tcSnap tcDistance] in *.
    + destruct (fetchToken c AllTokenTypes (fst w)) as [src2 r2]. injection EP as <- <- <-. auto.
    + destruct (peekQueues above d).
      * injection EP as <- <- <-. auto.
      * destruct (fetchToken c AllTokenTypes (fst w)) as [src2 r2]. injection EP as <- <- <-. auto.
  - intros H. rewrite (IH _ _ _ _ _ _ H). unfold restore. destruct (tcSnap tc); auto.
Qed.

Section View.
Variable view : Src -> list Tok.
Variable eoi : Tok.
Hypothesis HS : sourceOf c view eoi.
Hypothesis HQ : quietHooks c.
(** logs have the latest first *)
Definition readS (x : world Src W * list event) (y : world Src W * list event) : Prop :=
  noFail (rev (snd y)) -> noFail (rev (snd x)) /\
  exists l taken eois, rev (snd y) = rev (snd x) ++ l /\
    somes (passed nHooksC l) = taken ++ eois /\ view (fst (fst x)) = taken ++ view (fst (fst y)) /\
    Forall (eq eoi) eois /\ (eois <> [] -> view (fst (fst y)) = []).

Lemma readS_hist x y : hist c x y -> readS x y.
Proof.
  induction 1 as [x|x y z HH IH HP].
  - intros H. split; auto. exists [], [], []. rewrite app_nil_r. repeat split; auto. congruence.
  - intros HN.
    assert (SAME : forall ev w', snd z = ev :: snd y -> fst z = w' -> fst w' = fst (fst y) -> passed nHooksC [ev] = [] ->
      noFail (rev (snd x)) /\ exists l taken eois, rev (snd z) = rev (snd x) ++ l /\
       somes (passed nHooksC l) = taken ++ eois /\ view (fst (fst x)) = taken ++ view (fst (fst z)) /\
       Forall (eq eoi) eois /\ (eois <> [] -> view (fst (fst z)) = [])).
    { intros ev w' E1 E2 E3 E4. rewrite E1 in HN |- *. cbn [rev] in HN |- *. apply noFail_app in HN as [HN _].
      destruct (IH HN) as (N1 & l & taken & eois & L1 & L2 & L3 & L4 & L5). split; auto.
      exists (l ++ [ev]), taken, eois. rewrite L1, <- app_assoc, passed_app, E4, app_nil_r, E2, E3. auto. }
    destruct HQ. inversion HP; subst; clear HP; cbn [fst snd] in *.
    all: try (eapply SAME; [reflexivity|reflexivity| |reflexivity]; auto; fail).
    + eapply SAME; [reflexivity|reflexivity| |reflexivity]. specialize (qh_newNode i node t w). rewrite H0 in qh_newNode. exact qh_newNode.
    + eapply SAME; [reflexivity|reflexivity| |reflexivity]. specialize (qh_token i t w). rewrite H in qh_token. exact qh_token.
    + eapply SAME; [reflexivity|reflexivity| |reflexivity]. specialize (qh_node i node x0 w). rewrite H in qh_node. exact qh_node.
    + eapply SAME; [reflexivity|reflexivity| |reflexivity]. specialize (qh_end i w). rewrite H in qh_end. exact qh_end.
    + eapply SAME; [reflexivity|reflexivity| |reflexivity]. specialize (qh_create table h node t w (nth_error_In _ _ H) H0). rewrite H1 in qh_create. exact qh_create.
    + eapply SAME; [reflexivity|reflexivity| |reflexivity]. specialize (qh_ctx w). rewrite H in qh_ctx. exact qh_ctx.
    + (* fetch *) cbn [rev] in HN. apply noFail_app in HN as [HN _]. destruct (IH HN) as (N1 & m & taken & eois & L1 & L2 & L3 & L4 & L5). split; auto.
      cbn [fst snd rev] in *. exists (m ++ [EvPass nHooksC t]). rewrite L1, <- app_assoc, passed_app, somes_app, L2. cbn [passed flat_map]. rewrite Nat.eqb_refl. cbn [app].
      destruct HS as (_ & S1 & S2). destruct t as [t|]; cbn [somes flat_map app].
      * destruct (S1 _ _ _ _ H) as [F|(F1 & -> & F2)].
        -- assert (eois = []) as -> by (destruct eois; auto; specialize (L5 ltac:(discriminate)); congruence).
           exists (taken ++ [t]), []. rewrite !app_nil_r. rewrite L3, F, <- app_assoc. repeat split; auto. congruence.
        -- exists taken, (eois ++ [eoi]). rewrite <- app_assoc, L3, F1, F2. do 3 (split; [auto|]). split; [apply Forall_app|]; auto.
      * exists taken, eois. rewrite app_nil_r, L3, (S2 _ _ _ H). repeat split; auto.
    + (* failed fetch *) cbn [rev] in HN. apply noFail_app in HN as [_ HN]. discriminate.
    + eapply SAME; [reflexivity|reflexivity|auto|]. cbn. destruct (Nat.eqb_spec layer nHooksC); [lia|auto].
    + eapply SAME; [reflexivity|reflexivity| |reflexivity]. rewrite (runHook_quiet _ _ (qh_hook _ _ t H H0) _ _ _ _ _ H1). auto.
    + cbn [rev] in HN. apply noFail_app in HN as [_ HN]. discriminate.
Qed.

(** *** Parsing without hook layers and ambiguity: the token read last *)
Hypothesis N0 : cTokenHooks c = [].
Hypothesis M0 : gMultiRules g = [].
Definition lastPass (l : list event) : option (option Tok) :=
  match flat_map (fun ev => match ev with EvPass _ t => [t] | _ => [] end) l with t :: _ => Some t | [] => None end.
(** the source is where the lexers left it *)
Definition fresh (x : world Src W * list event) : Prop :=
  noFail (rev (snd x)) -> forall t, lastPass (snd x) = Some (Some t) -> exists types src, fetchToken c types src = (fst (fst x), (Some t, None)).
Lemma fresh_hist x y : hist c x y -> fresh x -> fresh y.
Proof.
  induction 1 as [x|x y z HH IH HP]; auto. intros HF. specialize (IH HF). intros HN.
  assert (SAME : forall ev w', snd z = ev :: snd y -> fst z = w' -> fst w' = fst (fst y) -> lastPass (snd z) = lastPass (snd y) ->
     forall t, lastPass (snd z) = Some (Some t) -> exists types src, fetchToken c types src = (fst (fst z), (Some t, None))).
  { intros ev w' E1 E2 E3 E4 t. rewrite E1 in HN. cbn [rev] in HN. apply noFail_app in HN as [HN _].
    rewrite E4, E2, E3. apply IH. exact HN. }
  destruct HQ. inversion HP; subst; clear HP; cbn [fst snd] in *.
  all: try (eapply SAME; [reflexivity|reflexivity| |reflexivity]; auto; fail).
  + eapply SAME; [reflexivity|reflexivity| |reflexivity]. specialize (qh_newNode i node t w). rewrite H0 in qh_newNode. exact qh_newNode.
  + eapply SAME; [reflexivity|reflexivity| |reflexivity]. specialize (qh_token i t w). rewrite H in qh_token. exact qh_token.
  + eapply SAME; [reflexivity|reflexivity| |reflexivity]. specialize (qh_node i node x0 w). rewrite H in qh_node. exact qh_node.
  + eapply SAME; [reflexivity|reflexivity| |reflexivity]. specialize (qh_end i w). rewrite H in qh_end. exact qh_end.
  + eapply SAME; [reflexivity|reflexivity| |reflexivity]. specialize (qh_create table h node t w (nth_error_In _ _ H) H0). rewrite H1 in qh_create. exact qh_create.
  + eapply SAME; [reflexivity|reflexivity| |reflexivity]. specialize (qh_ctx w). rewrite H in qh_ctx. exact qh_ctx.
  + intros t' HT. unfold lastPass in HT. cbn in HT. injection HT as ->. exists types, (fst w). auto.
  + cbn [rev] in HN. apply noFail_app in HN as [_ HN]. discriminate.
  + rewrite N0 in H. cbn in H. lia.
  + rewrite N0 in H. destruct H.
  + cbn [rev] in HN. apply noFail_app in HN as [_ HN]. discriminate.
Qed.


Definition np (s s' : pstate) : Prop := pTokens s' = pTokens s /\ pApplied s' = pApplied s /\ lastPass (pLog s') = lastPass (pLog s).
Definition npR {A} (s : pstate) (m : res A) : Prop := match m with Done _ s' => np s s' | _ => True end.
Lemma np_refl s s' : pTokens s' = pTokens s -> pApplied s' = pApplied s -> pLog s' = pLog s -> np s s'.
Proof. intros A B C. unfold np. rewrite A, B, C. auto. Qed.
Lemma npR_bind {A B} s (m : res A) (k : A -> pstate -> res B) : npR s m -> (forall a s', npR s' (k a s')) -> npR s (bind m k).
Proof.
  destruct m as [a s1|e s1| |s1]; cbn; auto. intros (H1 & H2 & H3) HK. specialize (HK a s1). destruct (k a s1) as [b s2| | |]; cbn in *; auto.
  destruct HK as (A1 & A2 & A3). unfold np. repeat split; congruence.
Qed.
Lemma npR_nret s e (s' : pstate) : np s s' -> npR s (nret e s').
Proof. destruct e; cbn; auto. Qed.
Ltac npr := first [apply np_refl; reflexivity | repeat split; reflexivity].
Lemma np_newNodes : forall hooks layer node t s, npR s (newNodes c layer hooks node t s).
Proof.
  induction hooks as [|[i|] r IH]; intros; cbn [newNodes]; [npr| |auto]. destruct (mNewNode _ _ _ _ _) as [w e].
  apply npR_bind; [apply npR_nret; npr|auto].
Qed.
Lemma np_handleTokens : forall hooks layer t s, npR s (handleTokens c layer hooks t s).
Proof.
  induction hooks as [|[i|] r IH]; intros; cbn [handleTokens]; [npr| |auto]. destruct (mHandleToken _ _ _ _) as [w e].
  apply npR_bind; [apply npR_nret; npr|auto].
Qed.
Lemma np_endNodes : forall hooks layer s, npR s (endNodes c layer hooks s).
Proof.
  induction hooks as [|[i|] r IH]; intros layer s; cbn [endNodes]; [npr| |].
  - destruct (mEndNode _ _ _) as [w [x e]]. apply npR_bind; [apply npR_nret; npr|]. intros _ s1.
    apply npR_bind; [|intros; npr]. destruct (_ && _); [|apply IH].
    specialize (IH (S layer) (setLast s1 x)). destruct (endNodes c (S layer) r (setLast s1 x)); auto.
  - apply npR_bind; [apply IH; auto|]. intros; npr.
Qed.
Lemma np_handleNodes : forall hooks layer node results s, npR s (handleNodes c layer hooks node results s).
Proof.
  induction hooks as [|[i|] r IH]; intros layer node results s; cbn [handleNodes]; [npr| |auto].
  destruct results as [|x xs]; [exact I|]. destruct (mHandleNode _ _ _ _ _) as [w e]. apply npR_bind; [apply npR_nret; npr|auto].
Qed.
Lemma np_newHooks : forall tables layer node t (s : pstate), npR s (newHooks layer tables node t s).
Proof.
  induction tables as [|table r IH]; intros layer node t s; cbn [newHooks]; [npr|].
  apply npR_bind; [|intros; apply npR_bind; [apply IH|intros; npr]].
  unfold getNodeHook. destruct (zget table (node + 1)) as [h|]; [|exact I]. destruct (zget table 0) as [any|]; [|exact I].
  destruct (match h with Some _ => h | None => any end) as [h'|]; [|npr]. destruct (h' _ _ _) as [w [i e]].
  apply npR_bind; [apply npR_nret; npr|intros; npr].
Qed.
Lemma np_handleTokenList hooks : forall ts s, npR s (handleTokenList c hooks ts s).
Proof. induction ts; intros s; cbn [handleTokenList]; [npr|]. apply npR_bind; [apply np_handleTokens; auto|auto]. Qed.
Lemma np_handleNodeSides s : npR s (handleNodeSides c s).
Proof. unfold handleNodeSides. destruct (pStack s); [npr|]. apply npR_bind; [apply np_handleTokenList; auto|intros; npr]. Qed.
Lemma np_pushNode node t s : npR s (pushNode c node t s).
Proof.
  unfold pushNode. apply npR_bind; [apply np_handleNodeSides; auto|]. intros _ s1. destruct (zget (gNodes g) node) as [nt|]; [|exact I].
  apply npR_bind; [destruct (pStack s1); [npr|apply np_newNodes; auto]|]. intros _ s2.
  apply npR_bind; [apply np_newHooks; auto|]. intros hooks s3. destruct (zget (gStates g) (gnFirst nt)); [npr|exact I].
Qed.
Lemma npR_from {A} s s1 (m : res A) : np s s1 -> npR s1 m -> npR s m.
Proof. intros H1 H2. apply (npR_bind s (Done tt s1) (fun _ s' => m)). Abort.
Lemma npR_from {A} s s1 (m : res A) : pTokens s1 = pTokens s -> pApplied s1 = pApplied s -> pLog s1 = pLog s -> npR s1 m -> npR s m.
Proof. destruct m; cbn; auto. unfold np. intros -> -> ->. auto. Qed.
Lemma np_popLoop : forall stack sides s, npR s (popLoop c stack sides s).
Proof.
  induction stack as [|n rest IH]; intros sides s; cbn [popLoop]; [npr|].
  destruct (negb _); [npr|]. apply npR_bind; [destruct rest; [apply np_handleTokenList; auto|npr]|]. intros _ s1.
  apply npR_bind; [apply np_endNodes; auto|]. intros results s2. destruct rest as [|p qq]; [npr|].
  apply npR_bind; [|intros _ s3; apply IH; auto]. apply (npR_from s2 (setStack s2 (p :: qq))); auto. apply np_handleNodes.
Qed.
Lemma np_applyRule t r s : npR s (applyRule c t r s).
Proof.
  unfold applyRule. destruct (pStack s) as [|n st]; [exact I|]. destruct (if rState r =? repeatState then _ else _) as [n'|]; [|exact I].
  apply npR_bind; [|intros _ s1; apply npR_bind; [|intros; npr]].
  - apply (npR_from s (setTop s n')); auto. destruct (negb _); [apply np_pushNode|]. destruct (_ || _); [|npr]. unfold handleNodeToken. destruct t as [t|]; [|npr].
    destruct (pStack (setTop s n')) as [|m qq]; [exact I|]. destruct (isSideToken (cType c) g (Some t)); [npr|].
    apply npR_bind; [apply np_handleNodeSides|]. intros; apply np_handleTokens; auto.
  - destruct (pStack s1) as [|m qq] eqn:ES; [exact I|]. destruct (nState m =? FinalState); [|npr]. unfold popNode. rewrite ES.
    apply (npR_from s1 (setTop s1 (setNSides m []))); auto. apply np_popLoop; auto.
Qed.
Lemma nextToken_last fuel types s : pTokens s = [] ->
  match nextToken c fuel types s with Done t s' => pTokens s' = [] /\ pApplied s' = pApplied s /\ lastPass (pLog s') = Some t | _ => True end.
Proof.
  intros HT. unfold nextToken. rewrite HT. revert s HT. induction fuel as [|f IH]; intros s HT; cbn [nextLoop]; auto.
  rewrite N0. cbn [pullToken]. destruct (fetchToken c types _) as [src [t [e|]]]; cbn [ret bind]; auto.
  destruct (_ && _); [cbn; auto|]. specialize (IH (log (EvPass 0 t) (setWorld s (src, snd (pWorld s)))) HT).
  destruct (nextLoop c f types _); auto.
Qed.
Lemma parseLoop_last : forall fuel used t s, pTokens s = [] -> pApplied s = [] -> (lastPass (pLog s) = Some t \/ (used = true /\ t = None)) ->
  match parseLoop c fuel used t s with
  | Done (used', t') s' => pTokens s' = [] /\ (lastPass (pLog s') = Some t' \/ (used' = true /\ t' = None))
  | _ => True
  end.
Proof.
  induction fuel as [|f IH]; intros used t s HT HA HL; cbn [parseLoop]; auto.
  destruct (pStack s) as [|n ns]; [auto|]. destruct used.
  - unfold checkCtx. destruct (cCtx c (pWorld s)) as [w [e|]]; cbn [ret bind]; auto.
    set (s1 := log EvCheck (setWorld s w)). pose proof (nextToken_last f (nTypes n) s1 HT) as H.
    destruct (nextToken c f (nTypes n) s1) as [t2 s2| | |]; cbn [bind]; auto. destruct H as (H1 & H2 & H3).
    exact (IH false t2 (log (EvNext t2) s2) H1 (eq_trans H2 HA) (or_introl H3)).
  - destruct HL as [HL|[HL _]]; [|discriminate]. destruct (zget (gStates g) (nState n)) as [st|]; auto.
    unfold nextRule. rewrite HA. destruct (findRules _ _ _ g t st) as [rs|] eqn:EF; [|exact I]. pose proof (findRules_one c t st rs M0 EF) as HO.
    destruct rs as [|r [|r2 rs]]; [| |cbn in HO; lia].
    + cbn [bind]. unfold syntaxError. destruct (match t with Some _ => _ | None => _ end) as [t2 s2| | |]; cbn [bind]; auto.
      destruct (getExpectedToken c st); auto. destruct t2; auto.
    + cbn [bind]. pose proof (np_applyRule t r s) as HP. destruct (applyRule c t r s) as [u s1| | |]; cbn [bind]; auto.
      destruct HP as (P1 & P2 & P3). apply IH; try congruence. left. congruence.
Qed.

(** *** Everything together *)
Hypothesis HU : unreadOf c view.
Notation eoiT t := (cType c t =? EoiTokenType).
Definition notEoi (t : Tok) : bool := negb (eoiT t).
Lemma notEoi_all l : Forall (fun t => cType c t <> EoiTokenType) l -> filter notEoi l = l.
Proof. induction 1 as [|t l H _ IH]; cbn; auto. unfold notEoi at 1. rewrite (proj2 (Z.eqb_neq _ _) H), IH. auto. Qed.
Lemma eois_none l : Forall (eq eoi) l -> filter notEoi l = [].
Proof. induction 1 as [|t l <- _ IH]; cbn; auto. unfold notEoi at 1. destruct HS as [-> _]. rewrite Z.eqb_refl. auto. Qed.
Lemma filter_comm {A} (f h : A -> bool) l : filter f (filter h l) = filter h (filter f l).
Proof. induction l as [|x l IH]; cbn; auto. destruct (h x) eqn:E1, (f x) eqn:E2; cbn; rewrite ?E1, ?E2, IH; auto. Qed.
Lemma side_notEoi l : Forall (sideT c) l -> Forall (fun t => cType c t <> EoiTokenType) l.
Proof. apply Forall_impl. intros t H X. unfold sideT in H. rewrite X in H. unfold isSideType in H. cbn in H. discriminate. Qed.
(** what has been taken from the source, up to end-of-input tokens *)
Lemma seen_taken l taken eois : somes (passed nHooksC l) = taken ++ eois -> Forall (eq eoi) eois ->
  Forall (fun t => cType c t <> EoiTokenType) taken -> filter notEoi (somes (kept c l)) = filter visible taken.
Proof.
  intros H1 H2 H3. unfold kept. rewrite N0 in H1. cbn [length] in H1. rewrite somes_visible, H1, filter_comm, filter_app, (eois_none _ H2), (notEoi_all _ H3), app_nil_r. auto.
Qed.

Lemma prefix_side : forall a x ss e y, Forall (fun t => cType c t <> EoiTokenType) a -> cType c e = EoiTokenType -> a ++ x = ss ++ e :: y ->
  Forall (sideT c) ss -> Forall (sideT c) a.
Proof.
  induction a as [|t a IH]; intros x ss e y HA HE EQ HSs; [constructor|]. destruct ss as [|z ss].
  - cbn in EQ. injection EQ as -> _. inversion HA; congruence.
  - cbn in EQ. injection EQ as -> EQ. inversion HA; inversion HSs; subst. constructor; eauto.
Qed.
Lemma Forall_filter {A} (P : A -> Prop) f l : Forall P l -> Forall P (filter f l).
Proof. rewrite !Forall_forall. intros H x Hx. apply filter_In in Hx. apply H. tauto. Qed.
Lemma rest_all t0 T left fuel s3 u s4 : RI c t0 T left s3 -> rests (clog s3) = [] -> pTokens s3 = [] -> restLoop c fuel s3 = Done u s4 -> noFail (clog s4) ->
  Forall (fun t => cType c t <> EoiTokenType) (view (fst (pWorld s3))) -> Forall (sideT c) (filter visible (view (fst (pWorld s3)))).
Proof.
  intros HR R0 T0 HD NF HV. pose proof (restLoop_ok c t0 T left fuel s3 HR) as HO. pose proof (hs_restLoop c fuel s3) as HH.
  rewrite HD in HO, HH. cbn [post hs] in HO, HH. destruct HO as (R4 & HN & ss & e & HR4 & HSs & HE). rewrite R0 in HR4. cbn [app] in HR4.
  destruct (readS_hist _ _ HH NF) as (_ & l & taken & eois & L1 & L2 & L3 & L4 & L5). cbn [at_ fst snd] in *.
  change (rev (pLog s4)) with (clog s4) in L1. change (rev (pLog s3)) with (clog s3) in L1.
  assert (HKL : somes (kept c l) = ss ++ [e] ++ somes (pTokens s4)).
  { pose proof (r_kept _ _ _ _ _ R4) as K4. pose proof (r_kept _ _ _ _ _ HR) as K3. rewrite L1, kept_app, K3, R0, T0, <- L1, HN, HR4 in K4. cbn [map app] in K4.
    rewrite app_nil_r in K4. apply app_inv_head in K4. rewrite K4, somes_app. 
    assert (SM : forall l : list Tok, somes (map Some l) = l) by (induction l0 as [|? ? IH]; cbn; [auto|unfold somes in IH; rewrite IH; auto]).
    rewrite SM, <- app_assoc. auto. }
  unfold kept in HKL. rewrite N0 in L2. cbn [length] in L2. rewrite somes_visible, L2, filter_app in HKL. cbn [app] in HKL.
  assert (HT : Forall (fun t => cType c t <> EoiTokenType) taken) by (rewrite L3 in HV; apply Forall_app in HV; tauto).
  assert (VE : view (fst (pWorld s4)) = []).
  { apply L5. intros ->. cbn [filter] in HKL. rewrite app_nil_r in HKL. assert (X : In e (filter visible taken)) by (rewrite HKL; apply in_elt).
    apply filter_In in X. rewrite Forall_forall in HT. apply (HT e); tauto. }
  rewrite L3, VE, app_nil_r. eapply prefix_side; [apply Forall_filter; exact HT|exact HE|exact HKL|exact HSs].
Qed.

Lemma full_all fuel w t0 r s : cFullSource c = true -> parseFrom c fuel w t0 = Done r s ->
  Forall (fun t => cType c t <> EoiTokenType) (view (fst w)) ->
  exists T ss, treeOk T /\ (isRoot t0 T /\ (tablesOk g -> derived (cType c) (cText c) (cUpper c) g RootNode T)) /\ nodeEvents (clog s) = trace [] T /\
    filter visible (view (fst w)) = filter notEoi (leaves T) ++ ss /\ Forall (sideT c) ss.
Proof.
  intros HF HP HV.
  assert (NF : noFail (clog s)).
  { pose proof (errs_parseFrom c failed True (fun ev H _ => H) (or_introl (fun _ => M0)) fuel w t0) as H. rewrite HP in H. specialize (H Logic.I).
    unfold noFail, ParserProofs.clog. rewrite forallb_forall in *. intros x Hx. apply H, in_rev. auto. }
  unfold parseFrom, start in HP. set (s0 := mkP w [] (repeat [] (length (cTokenHooks c))) [] None [] [] false) in HP.
  pose proof (pushNode_ok c t0 (G c s0) (G c s0) [] [] s0 RootNode (Some t0)) as HPu.
  specialize (HPu (conj eq_refl (conj eq_refl (conj eq_refl (conj eq_refl eq_refl))))).
  pose proof (hs_pushNode c RootNode (Some t0) s0) as HH0. pose proof (np_pushNode RootNode (Some t0) s0) as HNP.
  destruct (pushNode c RootNode (Some t0) s0) as [u s1|e s1| |s1]; cbn [bind post hs] in *; try discriminate.
  destruct HPu as ([A1 A2 A3 A4 (m & A5 & A6)] & (fs & HI) & _). destruct (allN_kept c m A5) as (K1 & K2 & K3 & K4).
  assert (MM : MI c t0 true None s1).
  { change (clog s0) with (@nil event) in A6. cbn [app] in A6. constructor; try rewrite A6.
    - exists []. split; [|rewrite K2; auto]. left. exists fs. unfold G. rewrite A4. exact HI.
    - rewrite K1, K2, A1. auto.
    - intros [X|X]; [discriminate|congruence].
    - auto.
    - unfold ParserStream.layersOk. rewrite A2. apply repeat_length.
    - intros _ k HK. rewrite A6. destruct (K4 k) as [P1 P2]. destruct (K4 (S k)) as [P3 _]. rewrite P1, P2, P3, A2. split; auto.
      cbn. apply nth_repeat.
    - intros _. rewrite A3. apply replays_nil.
    - apply allN_noNF. auto.
    - intros _. rewrite A4. auto. }
  pose proof (parseLoop_ok c t0 fuel true None s1 MM) as HL. pose proof (hs_parseLoop c fuel true None s1) as HH1.
  destruct HNP as (NP1 & NP2 & NP3).
  pose proof (parseLoop_last fuel true None s1 NP1 NP2 (or_intror (conj eq_refl eq_refl))) as HLast.
  unfold parse in HP. destruct (parseLoop c fuel true None s1) as [[used t] s2|e s2| |s2]; cbn [bind post hs] in *; try discriminate.
  destruct HL as [ES M1]. cbn [fst snd] in *. destruct HLast as [T0 HLast].
  destruct M1 as [(U & HT & HUs) HK HC HR HLy HFl HRp HNF HLs].
  destruct HT as [(fs1 & I1)|(T & C1)].
  { exfalso. pose proof (i_match _ _ _ _ _ _ I1) as X. rewrite ES in X. inversion X; subst. exact (i_rooted _ _ _ _ _ _ I1). }
  pose proof (hist_trans c _ _ _ HH0 HH1) as HH. rewrite HF in HP.
  destruct (if used then Some s2 else _) as [s3|] eqn:E3; [|discriminate].
  assert (S3 : pLog s3 = pLog s2 /\ pStack s3 = pStack s2 /\ pLast s3 = pLast s2 /\ pQueues s3 = pQueues s2 /\ pTokens s3 = pTokens s2 /\ pLost s3 = pLost s2).
  { destruct used; [injection E3 as <-; auto 6|]. destruct t as [t|]; [|discriminate]. injection E3 as <-. destruct (_ =? _); auto 6. }
  destruct S3 as (S3a & S3b & S3c & S3d & S3e & S3f).
  assert (S3a' : clog s3 = clog s2) by (unfold ParserProofs.clog; rewrite S3a; auto).

  assert (NF2 : noFail (clog s2)).
  { assert (X : hist c (at_ s3) (at_ s)).
    { destruct (true && _) in HP.
      - pose proof (hs_restLoop c fuel s3) as HR3. destruct (restLoop c fuel s3) as [u' s4| | |]; cbn [bind hs] in *; try discriminate.
        injection HP as _ <-. exact HR3.
      - cbn [bind] in HP. injection HP as _ <-. constructor. }
    rewrite <- S3a'. apply (readS_hist _ _ X NF). }
  destruct (readS_hist _ _ HH NF2) as (_ & l & taken & eois & L1 & L2 & L3 & L4 & L5). cbn [at_ fst snd rev app] in L1, L2, L3, L5.
  change (pWorld s0) with w in L3. change (pLog s0) with (@nil event) in L1. cbn [rev app] in L1. change (rev (pLog s2)) with (clog s2) in L1. rewrite <- L1 in L2.
  assert (HTk : Forall (fun t => cType c t <> EoiTokenType) taken) by (rewrite L3 in HV; apply Forall_app in HV; tauto).
  assert (HV2 : Forall (fun t => cType c t <> EoiTokenType) (view (fst (pWorld s2)))) by (rewrite L3 in HV; apply Forall_app in HV; tauto).
  pose proof (seen_taken _ _ _ L2 L4 HTk) as SEEN. rewrite HK, T0, app_nil_r, HUs, filter_app in SEEN.
  assert (LV : leaves T = U) by apply C1.
  assert (VIS : forall x, t = Some x -> visible x = true /\ In x (taken ++ eois)).
  { intros x ->. destruct HC as (N & HC); [right; discriminate|]. assert (X : In (Some x) (kept c (clog s2))) by (rewrite HK, HC; apply in_or_app; left; apply in_or_app; right; left; auto).
    unfold kept in X. apply filter_In in X as [X1 X2]. rewrite <- visible_keep in X2. split; auto. rewrite <- L2, N0. apply in_flat_map. exists (Some x). split; [exact X1|left; auto]. }
  assert (R3 : RI c t0 T (if used then [] else optTok t) s3).
  { constructor; try rewrite S3a'; auto.
    - exists U. split; auto. apply (Closed_str c t0 (G c s2) _ T U s2); auto; [unfold G; rewrite S3f; auto|rewrite S3a'; auto].
    - rewrite HR, HK, S3e. auto.
    - unfold ParserStream.layersOk. rewrite S3d. auto.
    - intros X k HKk. rewrite S3a', S3d. apply HFl; auto.
    - rewrite S3f. auto. }
  assert (EVS : nodeEvents (clog s2) = trace [] T) by apply C1.
  destruct (match t with None => true | Some t => negb (eoiT t) end) eqn:EE.
  - cbn [andb] in HP. pose proof (restLoop_ok c t0 T _ fuel s3 R3) as HO. destruct (restLoop c fuel s3) as [u' s4| | |] eqn:ER; cbn [bind post] in *; try discriminate.
    injection HP as _ <-. destruct HO as (R4 & _). destruct (r_closed _ _ _ _ _ R4) as (U4 & C4 & _).
    destruct used.
    + injection E3 as <-. exists T, (filter visible (view (fst (pWorld s2)))). split; [apply C1|]. split; [split; [apply C1|intros TOK; apply C1; split; [apply HLs, M0|exact TOK]]|].
      assert (EV4 : nodeEvents (clog s4) = trace [] T) by apply C4. split; auto. split.
      * rewrite L3, filter_app, LV. cbn [filter] in SEEN. rewrite app_nil_r in SEEN. rewrite SEEN. auto.
      * eapply rest_all; eauto.
    + destruct t as [t|]; [|discriminate]. unfold notEoi in *. destruct (eoiT t) eqn:ET; [discriminate|]. injection E3 as <-.
      destruct HLast as [HLast|[X _]]; [|discriminate].
      destruct (fresh_hist _ _ HH (fun _ t X => ltac:(discriminate)) NF2 t HLast) as (types & src & HFt). cbn [at_ fst] in HFt.
      destruct (VIS t eq_refl) as [VT _].
      assert (NF3 : cType c t <> EofTokenType). { unfold ParserFlowSpec.visible in VT. apply andb_true_iff in VT. destruct VT as (VT & _). apply negb_true_iff, Z.eqb_neq in VT. exact VT. }
      pose proof (HU _ _ _ _ HFt (proj1 (Z.eqb_neq _ _) ET) NF3) as HVU.
      exists T, (filter visible (t :: view (fst (pWorld s2)))). split; [apply C1|]. split; [split; [apply C1|intros TOK; apply C1; split; [apply HLs, M0|exact TOK]]|].
      assert (EV4 : nodeEvents (clog s4) = trace [] T) by apply C4. split; auto. split.
      * rewrite L3, filter_app, LV, <- SEEN, <- app_assoc. f_equal. cbn [optTok filter]. rewrite ET, VT. auto.
      * rewrite <- HVU. eapply (rest_all t0 T _ fuel _ u' s4 R3); eauto; cbn [fst snd pWorld setWorld].
        rewrite HVU. constructor; auto. apply Z.eqb_neq. auto.
  - cbn [andb bind] in HP. injection HP as _ <-. destruct t as [t|]; [|discriminate]. apply negb_false_iff, Z.eqb_eq in EE.
    exists T, []. split; [apply C1|]. split; [split; [apply C1|intros TOK; apply C1; split; [apply HLs, M0|exact TOK]]|]. rewrite S3a'. split; [exact EVS|]. split; [|constructor].
    destruct (VIS t eq_refl) as [_ VI]. assert (VE : view (fst (pWorld s2)) = []).
    { apply L5. intros ->. rewrite app_nil_r in VI. rewrite Forall_forall in HTk. apply (HTk t VI EE). }
    rewrite app_nil_r, L3, VE, app_nil_r, LV, <- SEEN. destruct used; cbn [optTok filter]; [apply app_nil_r|].
    unfold notEoi at 2. rewrite EE. cbn. apply app_nil_r.
Qed.
End View.
End P.
