(** Proofs: the parser follows the right variant. *)
From Coq Require Import ZArith List Bool Lia Arith.
From Verif Require Import Base BaseProofs Grammar Rules RulesSpec Prop_Rules Parser ParserSpec ParserSafeSpec ParserFlowSpec ParserProofs ParserInv ParserStream ParserLook ParserTerm LookLongest VariantSpec Variant PredictSpec PredictSim StarSpec StarRun.
Import ListNotations.
Open Scope Z_scope.

Section P.
Context {Tok Src W E Inst R : Type}.
Variable c : config Tok Src W E Inst R.
Notation g := (cGrammar c).
Notation pstate := (pstate Tok Src W E Inst R).
Notation res := (res Tok Src W E Inst R).
Notation nodeRec := (nodeRec Tok Inst).
Notation step := (ParserLook.step c).
Notation brun := (ParserLook.brun c).
Notation findRules := (findRules (cType c) (cText c) (cUpper c) g).
Notation variant := (variant (cType c) (cText c) (cUpper c) g).
Variables (view : Src -> list Tok) (eoi : Tok).
Notation input := (input c view eoi).
Notation ends := (@ends Tok eoi).

Hypothesis GO : grammarOk c.
Hypothesis CH : calmHooks c.
Hypothesis EA : eager c view eoi.
Hypothesis TZ : forall i st, zget (gStates g) i = Some st -> sTypes st <> 0.
Let NE := ch_errors _ CH.
Let QH := ch_quiet _ CH.
Let NT := ch_tokens _ CH.
Let HT := ch_nodes _ CH.
Let TO := go_tables _ GO.

(** ** The flag stays *)
Definition keepLost {A} (s : pstate) (m : res A) : Prop := match m with Done _ s' | Fail _ s' | NoFuel s' => pLost s = true -> pLost s' = true | Panic => True end.
Lemma kl_same {A} s (m : res A) : sameLost s m -> keepLost s m.
Proof. destruct m; cbn; congruence. Qed.
Lemma kl_bind {A B} (s : pstate) (m : res A) (k : A -> pstate -> res B) : keepLost s m -> (forall a s', keepLost s' (k a s')) -> keepLost s (bind m k).
Proof. destruct m as [a s'|e s'| |s']; cbn; auto. intros H HK. specialize (HK a s'). destruct (k a s') as [b s2|e s2| |s2]; cbn in *; auto. Qed.
Lemma sl_nret e (s s' : pstate) : pLost s' = pLost s -> sameLost s (nret e s').
Proof. intros H. destruct e; exact H. Qed.
Lemma sl_newNodes node t : forall hooks layer s, sameLost s (newNodes c layer hooks node t s).
Proof. induction hooks as [|[i|] hooks IH]; intros layer s; cbn [newNodes]; [reflexivity| |apply IH]. destruct (mNewNode _ _ _ _ _) as (w, e). apply lost_bind; [apply sl_nret; reflexivity|]. intros. apply IH. Qed.
Lemma sl_handleTokens t : forall hooks layer s, sameLost s (handleTokens c layer hooks t s).
Proof. induction hooks as [|[i|] hooks IH]; intros layer s; cbn [handleTokens]; [reflexivity| |apply IH]. destruct (mHandleToken _ _ _ _) as (w, e). apply lost_bind; [apply sl_nret; reflexivity|]. intros. apply IH. Qed.
Lemma sl_endNodes : forall hooks layer s, sameLost s (endNodes c layer hooks s).
Proof.
  induction hooks as [|[i|] hooks IH]; intros layer s; cbn [endNodes]; [reflexivity| |apply lost_bind; [apply IH|reflexivity]].
  destruct (mEndNode _ _ _) as (w, (x, e)). apply lost_bind; [apply sl_nret; reflexivity|]. intros _ s1. cbn zeta.
  set (s2 := if (layer =? 0)%nat && cWatchNodes c then setLast s1 x else s1). assert (X : pLost s2 = pLost s1) by (subst s2; destruct (_ && _); reflexivity).
  pose proof (IH (S layer) s2) as Y. destruct (endNodes c (S layer) hooks s2); cbn in *; congruence || exact I.
Qed.
Lemma sl_handleNodes node : forall hooks layer results s, sameLost s (handleNodes c layer hooks node results s).
Proof. induction hooks as [|[i|] hooks IH]; intros layer results s; cbn [handleNodes]; [reflexivity| |apply IH]. destruct results as [|x xs]; [exact I|]. destruct (mHandleNode _ _ _ _ _) as (w, e). apply lost_bind; [apply sl_nret; reflexivity|]. intros. apply IH. Qed.
Lemma sl_newHooks node t : forall tables layer (s : pstate), sameLost s (newHooks layer tables node t s).
Proof.
  induction tables as [|table tables IH]; intros layer s; cbn [newHooks]; [reflexivity|]. apply lost_bind; [|intros; apply lost_bind; [apply IH|reflexivity]].
  unfold getNodeHook. destruct (zget table (node + 1)) as [h|]; [|exact I]. destruct (zget table 0) as [any|]; [|exact I]. destruct (match h with Some _ => h | None => any end) as [hk|]; [|reflexivity].
  destruct (hk _ _ _) as (w, (i, e)). apply lost_bind; [apply sl_nret; reflexivity|]. reflexivity.
Qed.
Lemma sl_handleTokenList hooks : forall ts s, sameLost s (handleTokenList c hooks ts s).
Proof. induction ts as [|t ts IH]; intros s; cbn [handleTokenList]; [reflexivity|]. apply lost_bind; [apply sl_handleTokens|]. intros. apply IH. Qed.
Lemma sl_handleNodeSides s : sameLost s (handleNodeSides c s).
Proof. unfold handleNodeSides. destruct (pStack s); [reflexivity|]. apply lost_bind; [apply sl_handleTokenList|]. reflexivity. Qed.
Lemma sl_handleNodeToken t s : sameLost s (handleNodeToken c t s).
Proof. unfold handleNodeToken. destruct t as [t|]; [|reflexivity]. destruct (pStack s); [exact I|]. destruct (isSideToken _ _ _); [reflexivity|]. apply lost_bind; [apply sl_handleNodeSides|]. intros. apply sl_handleTokens. Qed.
Lemma sl_pushNode node t s : sameLost s (pushNode c node t s).
Proof.
  unfold pushNode. apply lost_bind; [apply sl_handleNodeSides|]. intros _ s1. destruct (zget (gNodes g) node) as [nt|]; [|exact I]. apply lost_bind; [destruct (pStack s1); [reflexivity|apply sl_newNodes]|].
  intros _ s2. apply lost_bind; [apply sl_newHooks|]. intros hooks s3. destruct (zget (gStates g) _); [reflexivity|exact I].
Qed.
Lemma sl_popLoop : forall stack sides s, sameLost s (popLoop c stack sides s).
Proof.
  induction stack as [|n rest IH]; intros sides s; cbn [popLoop]; [reflexivity|]. destruct (negb _); [reflexivity|]. apply lost_bind; [destruct rest; [apply sl_handleTokenList|reflexivity]|].
  intros _ s1. apply lost_bind; [apply sl_endNodes|]. intros l s2. destruct rest as [|p rest]; [reflexivity|].
  pose proof (sl_handleNodes (nIndex n) (nHooks p) 0 l (setStack s2 (p :: rest))) as X. destruct (handleNodes c 0 (nHooks p) (nIndex n) l (setStack s2 (p :: rest))) as [u s3|e s3| |s3]; cbn [bind sameLost] in *; auto.
  pose proof (IH sides s3) as Y. destruct (popLoop c (p :: rest) sides s3); cbn in *; congruence || exact I.
Qed.
Lemma sl_applyRule t r s : sameLost s (applyRule c t r s).
Proof.
  unfold applyRule. destruct (pStack s) as [|n ns]; [exact I|]. cbn zeta. destruct (if rState r =? repeatState then Some n else _) as [n'|]; [|exact I].
  set (s0 := setTop s n'). assert (X : sameLost s0 (let! (_, s1) := (if negb (rNode r =? SameNode) then pushNode c (rNode r) t s0 else if (rNode r =? SameNode) && negb (rToken r =? AnyToken) || match t with None => true | Some _ => false end then handleNodeToken c t s0 else Done tt s0) in
     let! (_, s2) := (match pStack s1 with n1 :: _ => if nState n1 =? FinalState then popNode c s1 else Done tt s1 | [] => Panic end) in
     Done ((rNode r =? SameNode) && negb (rToken r =? AnyToken) || match t with None => true | Some _ => false end) s2)).
  { apply lost_bind; [destruct (negb _); [apply sl_pushNode|destruct (_ || _); [apply sl_handleNodeToken|reflexivity]]|].
    intros _ s1. apply lost_bind; [|reflexivity]. destruct (pStack s1) as [|n1 ns1] eqn:E1; [exact I|]. destruct (nState n1 =? FinalState); [|reflexivity].
    unfold popNode. rewrite E1. pose proof (sl_popLoop (pStack (setTop s1 (setNSides n1 []))) (nSides n1) (setTop s1 (setNSides n1 []))) as Y. destruct (popLoop c _ _ _); cbn in *; congruence || exact I. }
  exact X.
Qed.
Lemma lookLoop_fail : forall f t tokens k s e s', lookLoop c f t tokens k s <> Fail e s'.
Proof.
  induction f as [|f IH]; intros t tokens k s e s' H; cbn [lookLoop] in H; [discriminate|]. destruct (lookRound _ _ _ _ _ _ _) as [[[k1 lost]|]|]; try discriminate.
    assert (FN : forall s2 : pstate, match match kNext k1 with b :: _ => Some b | [] => match kSuccess k1 with Some b => Some b | None => kError k1 end end with
      | None => Panic | Some b => match nth_error (kStore k1) b with Some br => Done (tokens ++ [t], bRules br) s2 | None => Panic end end <> Fail e s').
    { intros s2. destruct (match kNext k1 with [] => _ | b :: _ => Some b end); [|discriminate]. destruct (nth_error _ _); discriminate. }
    destruct (length (kNext k1) <=? 1)%nat; [exact (FN _ H)|]. destruct (lookTypes _ _ =? 0); [exact (FN _ H)|]. destruct (nextToken _ _ _ _); try discriminate; [exact (IH _ _ _ _ _ _ H)|exact (FN _ H)].
Qed.
Lemma kl_nextRule f t st s : keepLost s (nextRule c f t st s).
Proof.
  pose proof (nextRule_lost c NT f t st s) as X. destruct (nextRule c f t st s) as [r s'|e s'| |s'] eqn:EN; cbn in *; auto. exfalso.
  unfold nextRule in EN. destruct (pApplied s); [|discriminate]. destruct (findRules t st) as [[|r [|r' rs]]|]; try discriminate.
  unfold resolveConflict in EN. destruct (pStack s); [discriminate|].
  match type of EN with bind ?m _ = _ => destruct m as [[tokens rules] s1|e1 s1| |s1] eqn:EL end; cbn [bind] in EN; try discriminate; [destruct rules; discriminate|exact (lookLoop_fail _ _ _ _ _ _ _ EL)].
Qed.
Lemma kl_parseLoop : forall f used t s, keepLost s (parseLoop c f used t s).
Proof.
  induction f as [|f IH]; intros used t s; cbn [parseLoop]; [cbn; auto|]. destruct (pStack s) as [|n ns]; [cbn; auto|]. destruct used.
  - apply kl_bind; [apply kl_same; unfold checkCtx; destruct (cCtx c (pWorld s)) as [w [e|]]; reflexivity|]. intros _ s1. apply kl_bind; [apply kl_same, lost_nextToken|]. intros t1 s2.
    pose proof (IH false t1 (log (EvNext t1) s2)) as X. destruct (parseLoop _ _ _ _ _); exact X.
  - destruct (zget (gStates g) (nState n)) as [st|]; [|exact I]. apply kl_bind; [apply kl_nextRule|]. intros [r|] s1.
    + apply kl_bind; [apply kl_same, sl_applyRule|]. intros. apply IH.
    + unfold syntaxError. apply kl_bind; [destruct t; [cbn; auto|apply kl_same, lost_nextToken]|]. intros t1 s2. destruct (getExpectedToken c st); [|exact I]. destruct t1; [|exact I]. cbn. auto.
Qed.
Lemma kl_restLoop : forall f s, keepLost s (restLoop c f s).
Proof.
  induction f as [|f IH]; intros s; cbn [restLoop]; [cbn; auto|]. apply kl_bind; [apply kl_same, lost_nextToken|]. intros [t|] s1; [|exact I]. destruct (_ =? _); [cbn; auto|]. destruct (isSideType _ _); [|cbn; auto].
  pose proof (IH (log (EvRest t) s1)) as X. destruct (restLoop _ _ _); exact X.
Qed.

(** ** Tokens to come *)
Definition vis (s : pstate) : list (option Tok) := map Some (filter (visible c) (view (srcOf s))).
Definition more (s : pstate) : list (option Tok) := pTokens s ++ vis s.
Lemma ends_app a b : ends (a + b) = ends a ++ ends b.
Proof. apply repeat_app. Qed.
Lemma visible_side t : visible c t = negb (cType c t =? EofTokenType) && (negb (isSideType g (cType c t)) || cPassSides c).
Proof.
  unfold visible, sideToken, isSideType. f_equal. rewrite orb_comm. f_equal. f_equal. destruct (zget (gTokens g) (cType c t)) as [d|] eqn:Z; [|rewrite andb_false_r; reflexivity].
  apply zget_Some_inv in Z. destruct (Z.leb_spec 0 (cType c t)); [|lia]. destruct (Z.ltb_spec (cType c t) (zlen (gTokens g))); [reflexivity|lia].
Qed.
Lemma next_more f types s : match nextToken c f types s with
  | Done t s' => (exists j, t :: more s' = more s ++ ends j) /\ pStack s' = pStack s /\ pApplied s' = pApplied s
  | NoFuel _ => True | _ => False end.
Proof.
  unfold nextToken, more. destruct (pTokens s) as [|t0 ts] eqn:ET.
  2: { cbn. split; [exists 0%nat; cbn; rewrite app_nil_r; reflexivity|auto]. }
  revert s ET. induction f as [|f IH]; intros s ET; cbn [nextLoop]; [exact I|]. rewrite NT. cbn [pullToken]. destruct EA as [EE EF]. unfold vis, srcOf.
  destruct (EF types (fst (pWorld s))) as (src' & -> & EV). cbn [ret bind].
  set (s1 := log (EvPass 0 (Some (hd eoi (view (fst (pWorld s)))))) (setWorld s (src', snd (pWorld s)))).
  cbv beta iota zeta.
  pose proof (visible_side (hd eoi (view (fst (pWorld s))))) as VS. rewrite <- VS. clear VS.
  destruct (view (fst (pWorld s))) as [|a l] eqn:EW; cbn [hd tl] in *.
  - assert (V : visible c eoi = true). { rewrite visible_side, EE. cbn. reflexivity. } rewrite V. cbn. rewrite EV, ET. split; [exists 1%nat; reflexivity|auto].
  - cbn [filter]. destruct (visible c a) eqn:V.
    + cbn. rewrite EV, ET. cbn. split; [exists 0%nat; cbn; rewrite app_nil_r; reflexivity|auto].
    + specialize (IH s1 ET). unfold vis, srcOf in IH. cbn in IH. rewrite EV in IH. exact IH.
Qed.
Lemma next_fail f types s e s' : nextToken c f types s <> Fail e s'.
Proof. intros H. pose proof (next_more f types s) as X. rewrite H in X. exact X. Qed.
Lemma more_lost (s : pstate) x : more (setLost s x) = more s. Proof. reflexivity. Qed.
Lemma look_more : forall f t tokens k s x s', lookLoop c f t tokens k s = Done x s' ->
  (exists j, fst x ++ more s' = tokens ++ (t :: more s) ++ ends j) /\ pStack s' = pStack s /\ pApplied s' = pApplied s.
Proof.
  induction f as [|f IH]; intros t tokens k s x s' H; cbn [lookLoop] in H; [discriminate|]. destruct (lookRound _ _ _ _ _ _ _) as [[[k1 lost]|]|]; try discriminate.
  assert (FN : forall s2 : pstate, match match kNext k1 with b :: _ => Some b | [] => match kSuccess k1 with Some b => Some b | None => kError k1 end end with
      | None => Panic | Some b => match nth_error (kStore k1) b with Some br => Done (tokens ++ [t], bRules br) s2 | None => Panic end end = Done x s' -> fst x = tokens ++ [t] /\ s' = s2).
  { intros s2 HF. destruct (match kNext k1 with [] => _ | b :: _ => Some b end); [|discriminate]. destruct (nth_error _ _); [|discriminate]. injection HF as <- <-. auto. }
  assert (E0 : fst x = tokens ++ [t] -> s' = setLost s lost -> (exists j, fst x ++ more s' = tokens ++ (t :: more s) ++ ends j) /\ pStack s' = pStack s /\ pApplied s' = pApplied s).
  { intros -> ->. split; [exists 0%nat; rewrite more_lost; cbn; rewrite app_nil_r, <- app_assoc; reflexivity|auto]. }
  destruct (length (kNext k1) <=? 1)%nat; [destruct (FN _ H); auto|]. destruct (lookTypes _ _ =? 0); [destruct (FN _ H); auto|].
  pose proof (next_more (S f) (lookTypes (kStore k1) (kNext k1)) (setLost s lost)) as NM. destruct (nextToken _ _ _ _) as [t1 s1|e s1| |s1]; try discriminate; [|destruct NM].
  destruct NM as ((j & E1) & E2 & E3). destruct (IH _ _ _ _ _ _ H) as ((j2 & F1) & F2 & F3). split; [|split; [rewrite F2; exact E2|rewrite F3; exact E3]].
  exists (j + j2)%nat. rewrite F1, E1, more_lost, ends_app, <- !app_assoc. reflexivity.
Qed.

(** ** Rules with hooks and without them *)
Definition ofShape (x : Z * Z * Z) : nodeRec := let '(i, j, ty) := x in mkNodeRec [] [] ty i j.
Lemma bare_shape (l : list nodeRec) : map bare l = map ofShape (map shape l).
Proof. rewrite map_map. reflexivity. Qed.
Lemma settleN_dry : forall l, map ofShape (settleN l) = dryPop (map ofShape l).
Proof. induction l as [|((i, j), ty) l IH]; [reflexivity|]. cbn [settleN map dryPop]. cbn [ofShape nState]. destruct (j =? FinalState); [exact IH|reflexivity]. Qed.
Lemma apply_dry t r s n ns cons ls : pStack s = n :: ns -> hooked c s -> dryRule c t r (map bare (pStack s)) = Some (cons, ls) ->
  exists s', applyRule c t r s = Done cons s' /\ map bare (pStack s') = ls /\ srcOf s' = srcOf s /\ pTokens s' = pTokens s /\ pApplied s' = pApplied s /\ hooked c s'.
Proof.
  intros ST HK D. rewrite ST in D. cbn [map] in D. rewrite dryRule_eq in D. change (obind (newTop c r (bare n)) (fun n' => do stack <- (if rNode r =? SameNode then Some (n' :: map bare ns) else do nt <- zget (gNodes g) (rNode r); do st <- zget (gStates g) (gnFirst nt); Some (mkNodeRec [] [] (sTypes st) (rNode r) (gnFirst nt) :: n' :: map bare ns));
   Some ((rNode r =? SameNode) && negb (rToken r =? AnyToken) || match t with None => true | Some _ => false end, dryPop stack)) = Some (cons, ls)) in D.
  rewrite newTop_bare in D. unfold applyRule. rewrite ST. cbn zeta.
  match goal with |- context [match (if rState r =? repeatState then Some n else ?x) with _ => _ end] => change (if rState r =? repeatState then Some n else x) with (newTop c r n) end.
  destruct (newTop c r n) as [n'|] eqn:EN; [|discriminate]. cbn [obind] in D. destruct (newTop_same c r n n' EN) as (_ & HN & _).
  set (cc := (rNode r =? SameNode) && negb (rToken r =? AnyToken) || match t with None => true | Some _ => false end) in *.
  set (s0 := setTop s n').
  assert (ST1 : pStack s0 = n' :: ns) by (unfold s0, setTop; cbn; rewrite ST; reflexivity).
  assert (HK1 : hooked c s0). { unfold hooked in *. rewrite ST1. rewrite ST in HK. inversion HK; subst. constructor; [congruence|assumption]. }
  (* end of the rule *)
  assert (FIN : forall s1 stk, stk <> [] -> map shape (pStack s1) = stk -> hooked c s1 -> srcOf s1 = srcOf s -> pTokens s1 = pTokens s -> pApplied s1 = pApplied s -> ls = dryPop (map ofShape stk) ->
    exists s', (let! (_, s2) := (match pStack s1 with n1 :: _ => if nState n1 =? FinalState then popNode c s1 else Done tt s1 | [] => Panic end) in Done cc s2) = Done cc s' /\
      map bare (pStack s') = ls /\ srcOf s' = srcOf s /\ pTokens s' = pTokens s /\ pApplied s' = pApplied s /\ hooked c s').
  { intros s1 stk NS E1 H1 A1 A2 A3 EL. destruct (pStack s1) as [|n1 ns1] eqn:ST2; [cbn in E1; congruence|]. destruct (nState n1 =? FinalState) eqn:EF.
    - destruct (popNode_soft c NE QH s1 n1 ns1 ST2 H1) as (s' & -> & P1 & P2 & P3 & P4 & P5). cbn [bind]. exists s'. split; [reflexivity|]. split; [rewrite bare_shape, P4, E1, settleN_dry; congruence|]. repeat split; congruence || assumption.
    - cbn [bind]. exists s1. split; [reflexivity|]. split; [|repeat split; congruence || assumption]. rewrite EL, <- E1, <- bare_shape, ST2. cbn [map dryPop]. change (nState (bare n1)) with (nState n1). rewrite EF. reflexivity. }
  destruct (rNode r =? SameNode) eqn:EM; cbn [negb].
  - cbn [obind] in D. match type of D with Some (_, ?d) = _ => remember d as dp eqn:EDP end. injection D as <- <-.
    assert (B : exists s1, (if cc then handleNodeToken c t s0 else Done tt s0) = Done tt s1 /\ soft s0 s1).
    { destruct cc; [apply (handleNodeToken_soft c NE QH); rewrite ST1; discriminate|eexists; split; [reflexivity|apply soft_refl]]. }
    destruct B as (s1 & -> & SF). cbn [bind]. pose proof (soft_hooked _ _ _ SF HK1) as HK2. destruct SF as (S1 & S2 & S3 & S4 & S5).
    apply (FIN s1 (map shape (n' :: ns))); [discriminate|rewrite S4, ST1; reflexivity|exact HK2|exact S1|exact S2|exact S3|]. rewrite <- bare_shape. exact EDP.
  - destruct (zget (gNodes g) (rNode r)) as [nt|] eqn:ENT; [|discriminate]. cbn [obind] in D. destruct (zget (gStates g) (gnFirst nt)) as [st|] eqn:ES; [|discriminate]. cbn [obind] in D.
    match type of D with Some (_, ?d) = _ => remember d as dp eqn:EDP end. injection D as <- <-.
    destruct (pushNode_soft c GO NE QH HT (rNode r) nt t s0 ENT HK1) as (s1 & st1 & -> & GS & P1 & P2 & P3 & P4 & P5). cbn [bind]. rewrite ES in GS. injection GS as <-.
    apply (FIN s1 ((rNode r, gnFirst nt, sTypes st) :: map shape (n' :: ns))); [discriminate|rewrite P4, ST1; reflexivity|exact P5|exact P1|exact P2|exact P3|]. cbn [map]. rewrite <- bare_shape. exact EDP.
Qed.

(** ** The whole parse *)
Section Main.
Variables (src0 : Src) (root : gnode) (st0 : state) (all : list rule).
Hypothesis GR : zget (gNodes g) RootNode = Some root.
Hypothesis GS : zget (gStates g) (gnFirst root) = Some st0.
Hypothesis RD : reading c view eoi (gnFirst root) src0 all.
Hypothesis DC : decided c view eoi (gnFirst root) src0 all.
Definition r0 : nodeRec := mkNodeRec [] [] (sTypes st0) RootNode (gnFirst root).
Lemma input_app m j : input src0 (m + j) = input src0 m ++ ends j.
Proof. unfold StarSpec.input. rewrite ends_app, app_assoc. reflexivity. Qed.
Lemma reading_run : exists rem, brun [r0] (input src0 1) all [] rem /\ Forall (trailing c eoi) rem.
Proof.
  destruct RD as (k & V & F). change (RootNode, gnFirst root) with (pr r0) in V. destruct (run_variant c TO _ _ _ _ _ V) as (ls & B & EM & _). destruct ls; [|discriminate]. eauto.
Qed.
Lemma trailing_ends j : Forall (trailing c eoi) (ends j).
Proof. apply Forall_forall. intros x H. apply repeat_spec in H. subst x. left. reflexivity. Qed.
Definition cur (used : bool) (t : option Tok) (s : pstate) : list (option Tok) := (if used then [] else [t]) ++ more s.
(** the rules done and those to do *)
Definition way (s : pstate) (todo : list rule) (rem : list (option Tok)) : Prop := exists m done, all = done ++ todo /\ brun [r0] (input src0 m) done (map bare (pStack s)) rem /\ (1 <= m)%nat.
Lemma way_ext s todo rem j : way s todo rem -> way s todo (rem ++ ends j).
Proof. intros (m & done & A & B & C). exists (m + j)%nat, done. split; [exact A|]. split; [|lia]. rewrite input_app. apply brun_ext. exact B. Qed.
Lemma way_rest s todo rem : way s todo rem -> exists rem', brun (map bare (pStack s)) rem todo [] rem' /\ Forall (trailing c eoi) rem'.
Proof.
  intros (m & done & A & B & C). destruct reading_run as (rem1 & B1 & F). apply (brun_ext c _ _ _ _ _ (ends (m - 1))) in B1. rewrite <- input_app in B1. replace (1 + (m - 1))%nat with m in B1 by lia. rewrite A in B1.
  exists (rem1 ++ ends (m - 1)). split; [eapply run_rest; eauto|]. apply Forall_app. split; [exact F|apply trailing_ends].
Qed.
Definition INV used t s : Prop := (exists j x, way s (pApplied s ++ x) (cur used t s ++ ends j)) /\ hooked c s /\ (used = false -> pStack s = [] -> ~ isSide (cType c) g t).
Lemma way_typed s todo rem n ns : way s todo rem -> pStack s = n :: ns -> exists st, zget (gStates g) (nState n) = Some st /\ nTypes n = sTypes st.
Proof.
  intros (m & done & A & B & C) ST. rewrite ST in B.
  assert (T0 : Forall (Variant.typed c) [r0]) by (apply Forall_cons; [right; exists st0; split; [exact GS|reflexivity]|constructor]).
  assert (F0 : forall n1 r1, [r0] = n1 :: r1 -> nState n1 <> FinalState) by (intros n1 r1 X; injection X as <- _; cbn; intros Y; rewrite Y in GS; discriminate).
  destruct (typed_run c _ _ _ _ _ T0 F0 B) as [TY TF]. destruct (Forall_inv TY) as [X|X]; [destruct (TF _ _ eq_refl X)|exact X].
Qed.
Lemma conflict_find t (n : nodeRec) st r1 r2 rs : zget (gStates g) (nState n) = Some st -> findRules t st = Some (r1 :: r2 :: rs) -> conflict c t (nState n).
Proof.
  intros ES EF. destruct (proj2 TO _ _ ES) as (rules & multi & SO & SM). unfold Rules.findRules in EF. destruct (isSideToken (cType c) g t) eqn:SD.
  - destruct t as [t|]; discriminate.
  - assert (NS : ~ isSide (cType c) g t) by (intros H; apply isSideToken_spec in H; congruence). clear SD.
    destruct (possibleRuleKeys (cType c) (cText c) (cUpper c) g t) as [keys|] eqn:EK; [|discriminate].
    assert (RG : forall tok, t = Some tok -> cType c tok < 0 \/ exists d, zget (gTokens g) (cType c tok) = Some d).
    { intros tok ->. cbn [possibleRuleKeys] in EK. destruct (Z.leb_spec 0 (cType c tok)); [|left; auto]. right. destruct (zget (gTokens g) (cType c tok)); [eauto|discriminate]. }
    assert (K : keysOf (cType c) (cText c) (cUpper c) g t keys).
    { destruct (keys_spec (cType c) (cText c) (cUpper c) g t RG) as (keys' & E1 & K). rewrite EK in E1. injection E1 as <-. auto. }
    cbn [obind] in EF. pose proof (so_rules _ _ _ _ SO) as E1. pose proof (so_multi _ _ _ _ SO) as E2. rewrite E1, E2 in EF. cbn [obind] in EF.
    destruct (findByKeys_spec g st rules multi SO keys) as (rs' & E3 & SEL). rewrite E3 in EF. injection EF as ->.
    eapply Conflict; [exact NS| |exact ES|exact E1|exact E2|exact K|exact SEL|cbn; lia].
    intros tok ET. destruct (RG tok ET) as [X|(d & X)]; [pose proof (zlen_nonneg (gTokens g)); lia|]. apply zget_Some_inv in X. lia.
Qed.
Lemma nextRule_right f t st s n ns : pStack s = n :: ns -> zget (gStates g) (nState n) = Some st -> INV false t s ->
  match nextRule c f t st s with
  | Done r s1 => pLost s1 = true \/ exists r1 j x, r = Some r1 /\ pStack s1 = pStack s /\ way s1 (r1 :: pApplied s1 ++ x) (t :: more s1 ++ ends j)
  | Fail _ _ => False | _ => True end.
Proof.
  intros ST ES ((j & x & WY) & HK & _). cbn [cur app] in WY. unfold nextRule. destruct (pApplied s) as [|r rest] eqn:EA1.
  2: { right. exists r, j, x. split; [reflexivity|]. split; [reflexivity|]. exact WY. }
  cbn [app] in WY. destruct (way_rest _ _ _ WY) as (rem' & BT & FT). rewrite ST in BT. cbn [map] in BT. pose proof BT as BT0.
  apply brun_head in BT as [(_ & X & _)|(r1 & x' & ls1 & toks1 & -> & SP & BT)]; [discriminate|]. inversion SP as [n1 l1 t1 ts1 r2 st1 l cons ls2 A1 A2 A3 A4]; subst.
  change (nState (bare n)) with (nState n) in A1. rewrite ES in A1. injection A1 as <-. rewrite A2. destruct l as [|ra [|rb l]]; [destruct A3| |].
  - destruct A3 as [->|[]]. right. exists r1, j, x'. split; [reflexivity|]. split; [reflexivity|]. rewrite EA1. exact WY.
  - destruct (resolveConflict c f t s) as [[tokens rules] s1|e s1| |s1] eqn:ER; cbn [bind]; try exact I.
    2: { unfold resolveConflict in ER. rewrite ST in ER. exact (lookLoop_fail _ _ _ _ _ _ _ ER). }
    destruct (pLost s1) eqn:PL; [destruct rules; [exact I|left; exact PL]|].
    destruct (resolveConflict_longest c f t s n ns _ _ ER ST PL) as (_ & LG & SPD & more1 & EM). cbn [fst] in EM.
    unfold resolveConflict in ER. rewrite ST in ER. destruct (look_more _ _ _ _ _ _ _ ER) as ((j2 & MO) & PS & PA). cbn [fst app] in MO.
    pose proof (way_ext _ _ _ j2 WY) as WY2. assert (EQ : (t :: more s ++ ends j) ++ ends j2 = tokens ++ (more s1 ++ ends j)).
    { rewrite app_assoc, MO. cbn [app]. rewrite <- !app_assoc, <- !ends_app, Nat.add_comm. reflexivity. }
    destruct (way_typed _ _ _ _ _ WY ST) as (st1 & ES1 & ET1). rewrite ES in ES1. injection ES1 as <-.
    destruct (way_rest _ _ _ WY2) as (rem2 & BT2 & _). rewrite ST, EQ in BT2. cbn [map] in BT2. destruct (run_node c _ (bare n) [] (map bare ns) _ _ BT2) as (rsa & rsb & mid & ESP & RA).
    assert (EX : exists y, r1 :: x' = rules ++ y).
    { apply (right_chosen c TZ n st tokens (more s1 ++ ends j) _ mid rules s1 rsa rsb ES ET1 ESP RA); [|exact LG|exact SPD|intros; apply next_fail].
      intros rs2 l2 rem3 B3. destruct WY2 as (m & done & W1 & W2 & W3). rewrite ST in W2. cbn [map] in W2.
      destruct (variant_run c TO _ _ _ _ _ W2) as (k & V1 & V2 & V3). rewrite EQ in V2.
      assert (ETK : skipn k (input src0 m) = t :: (more s ++ ends j) ++ ends j2) by (rewrite <- V2, <- EQ; reflexivity).
      rewrite V2 in RA, B3. destruct (variant_run c TO _ _ _ _ _ RA) as (K & V4 & -> & V6). destruct (variant_run c TO _ _ _ _ _ B3) as (k3 & V7 & -> & V9).
      destruct (DC m done (r1 :: x') k (nIndex n) (nState n) (map pr (map bare ns)) t W1 V1) with (rsa := rsa) (rsb := rsb) (K := K) (rs' := rs2) (k' := k3) (l' := map pr l2) as [D|[D|(D1 & D2)]].
      - destruct (nth_skip _ _ _ _ ETK) as (X & _). exact X.
      - eapply conflict_find; eauto.
      - exact ESP.
      - exact V4.
      - exact V7.
      - left. exact D.
      - right. left. rewrite !skipn_length. rewrite skipn_length in V6, V9. lia.
      - right. right. subst k3. split; [reflexivity|]. destruct l2; [cbn in D2; congruence|discriminate]. }
    destruct EX as (y & EX). destruct rules as [|ra1 rules]; [exact I|]. cbn [app] in EX. injection EX as <- EX2. subst x'. right. exists r1, j, y. split; [reflexivity|]. split; [exact PS|].
    cbn [pApplied setApplied]. unfold way in WY2 |- *. change (pStack (setApplied (setTokens s1 (tl tokens ++ pTokens s1)) rules)) with (pStack s1). rewrite PS. rewrite EQ in WY2. subst tokens. cbn [tl app] in *.
    unfold more. cbn [pTokens setApplied setTokens]. rewrite <- !app_assoc. unfold more in WY2. rewrite <- !app_assoc in WY2. exact WY2.
Qed.
Lemma side_takes (s : list nodeRec) t r cons n st l ls : isSide (cType c) g t -> findRules t st = Some l -> In r l -> dryRule c t r (n :: s) = Some (cons, ls) -> cons = true.
Proof.
  intros SD EF HI D. destruct SD as (tok & -> & FL). rewrite (side_token_rule (cType c) (cText c) (cUpper c) g st tok) in EF by (exists tok; auto). injection EF as <-. destruct HI as [<-|[]].
  destruct (moves_dry c _ _ _ _ _ _ D) as [_ TD]. apply TD. right. split; [reflexivity|]. cbn. destruct FL as (d & ZG & _). apply zget_Some_inv in ZG. unfold AnyToken. lia.
Qed.
Lemma good_lost {A} (m : res A) s1 (P : A -> pstate -> Prop) : keepLost s1 m -> pLost s1 = true -> match m with Done x s' => pLost s' = true \/ P x s' | Fail _ s' => pLost s' = true | _ => True end.
Proof. intros K L. destruct m; cbn in K; auto. Qed.
Definition ended (x : bool * option Tok) (s' : pstate) : Prop := INV (fst x) (snd x) s' /\ pStack s' = [].
Lemma parseLoop_right : forall f used t s, INV used t s ->
  match parseLoop c f used t s with
  | Done x s' => pLost s' = true \/ ended x s'
  | Fail _ s' => pLost s' = true | _ => True end.
Proof.
  induction f as [|f IH]; intros used t s IV; cbn [parseLoop]; [exact I|]. destruct (pStack s) as [|n ns] eqn:ST; [right; split; auto|]. destruct used.
  - destruct (checkCtx_calm c NE QH s) as (s1 & -> & C1). cbn [bind]. destruct C1 as (E1 & E2 & E3 & E4). pose proof (next_more f (nTypes n) s1) as NM.
    destruct (nextToken c f (nTypes n) s1) as [t2 s2|e s2| |s2]; cbn [bind]; try exact I; [|destruct NM]. destruct NM as ((j2 & M1) & M2 & M3).
    apply IH. destruct IV as ((j & x & WY) & HK & _). split; [|split; [unfold hooked in *; cbn [pStack log]; rewrite M2, E4; exact HK|cbn [pStack log]; intros _ X; rewrite M2, E4, ST in X; discriminate]].
    exists j, x. apply (way_ext _ _ _ j2) in WY. cbn [cur app] in *. unfold way in *. cbn [pStack pApplied log]. rewrite M2, M3, E3, E4.
    replace (t2 :: more (log (EvNext t2) s2) ++ ends j) with ((more s ++ ends j) ++ ends j2); [exact WY|].
    change (more (log (EvNext t2) s2)) with (more s2). rewrite app_comm_cons, M1. assert (more s1 = more s) as -> by (unfold more, vis; rewrite E1, E2; reflexivity). rewrite <- !app_assoc, <- !ends_app, Nat.add_comm. reflexivity.
  - pose proof IV as IV0. destruct IV as ((j0 & x0 & WY0) & HK & _). destruct (way_typed _ _ _ _ _ WY0 ST) as (st & ES & ET). rewrite ES. clear WY0.
    pose proof (nextRule_right f t st s n ns ST ES IV0) as NR. pose proof (kl_nextRule f t st s) as KN. destruct (nextRule c f t st s) as [r s1|e s1| |s1] eqn:EN; cbn [bind]; try exact I; [|destruct NR].
    destruct NR as [L|(r1 & j & x & -> & PS & WY)].
    { destruct r as [r|].
      - apply (good_lost _ s1); [|exact L]. apply kl_bind; [apply kl_same, sl_applyRule|]. intros. apply kl_parseLoop.
      - apply (good_lost _ s1); [|exact L]. unfold syntaxError. apply kl_bind; [destruct t; [cbn; auto|apply kl_same, lost_nextToken]|]. intros t1 s2. destruct (getExpectedToken c st); [|exact I]. destruct t1; [|exact I]. cbn. auto. }
    destruct (way_rest _ _ _ WY) as (rem' & BT & _). rewrite PS, ST in BT. cbn [map] in BT. apply brun_head in BT as [(_ & X & _)|(r2 & x' & ls1 & toks1 & EQ & SP & BT)]; [discriminate|].
    injection EQ as <- <-. inversion SP as [n1 l1 t1 ts1 r2 st1 l cons ls2 A1 A2 A3 A4]; subst. pose proof PS as PS1. rewrite ST in PS1.
    assert (HK1 : hooked c s1) by (unfold hooked in *; rewrite PS; exact HK). pose proof A4 as A5. change (bare n :: map bare ns) with (map bare (n :: ns)) in A5. rewrite <- PS1 in A5.
    destruct (apply_dry _ _ _ _ _ _ _ PS1 HK1 A5) as (s2 & -> & B1 & B2 & B3 & B4 & B5). cbn [bind]. apply IH. split; [|split; [exact B5|]].
    + exists j, x. destruct WY as (m & done & W1 & W2 & W3). exists m, (done ++ [r1]). rewrite B4. split; [rewrite W1, <- app_assoc; reflexivity|]. split; [|exact W3]. eapply B_snoc; [exact W2|]. rewrite PS, ST, B1. cbn [map].
      replace (cur cons t s2 ++ ends j) with (if cons then more s1 ++ ends j else t :: more s1 ++ ends j); [exact SP|]. assert (MM : more s2 = more s1) by (unfold more, vis; rewrite B2, B3; reflexivity). unfold cur. rewrite MM. destruct cons; reflexivity.
    + intros -> _ SD. assert (false = true) by (eapply side_takes; [exact SD|exact A2|exact A3|exact A4]). discriminate.
Qed.
Lemma restLoop_right : forall f s, Forall (trailing c eoi) (more s) -> match restLoop c f s with Fail _ _ => False | _ => True end.
Proof.
  induction f as [|f IH]; intros s FT; cbn [restLoop]; [exact I|]. pose proof (next_more f AllTokenTypes s) as NM. destruct (nextToken c f AllTokenTypes s) as [t s1|e s1| |s1]; cbn [bind]; try exact I; [|destruct NM].
  destruct NM as ((j & M1) & _). assert (FA : Forall (trailing c eoi) (t :: more s1)) by (rewrite M1; apply Forall_app; split; [exact FT|apply trailing_ends]).
  destruct t as [t|]; [|exact I]. destruct (Z.eqb_spec (cType c t) EoiTokenType) as [X|X]; [exact I|]. destruct (Forall_inv FA) as [Y|Y]; [injection Y as ->; destruct (X (proj1 EA))|].
  apply isSideToken_spec in Y. cbn [isSideToken] in Y. rewrite Y. apply IH. exact (Forall_inv_tail FA).
Qed.
Lemma parse_right f s : INV true None s -> match parse c f s with Fail _ s' => pLost s' = true | _ => True end.
Proof.
  intros IV. unfold parse. pose proof (parseLoop_right f true None s IV) as PR.
  destruct (parseLoop c f true None s) as [[used t1] s1|e s1| |s1]; cbn [bind]; auto. destruct PR as [L|[IE SE]].
  - assert (KK : forall (b : bool) (s2 : pstate), pLost s2 = true -> match (let! (_, s3) := (if b then restLoop c f s2 else Done tt s2) in Done (pLast s3) s3) with Fail _ s' => pLost s' = true | _ => True end).
    { intros b s2 L2. pose proof (kl_restLoop f s2) as K. destruct b; [|exact I]. destruct (restLoop c f s2); cbn in *; auto. }
    destruct used; [apply KK, L|]. destruct t1 as [t1|]; [|exact I]. destruct (cType c t1 =? EoiTokenType); apply KK; exact L.
  - cbn [fst snd] in IE. destruct IE as ((j & x & WY) & HK & NS). destruct (way_rest _ _ _ WY) as (rem' & BT & FT). rewrite SE in BT. cbn [map] in BT. apply brun_empty in BT as (_ & _ & ->).
    apply Forall_app in FT as [FT _]. destruct used; cbn [cur app] in FT.
    + destruct (cFullSource c && _); [|exact I]. pose proof (restLoop_right f s1 FT) as X. destruct (restLoop c f s1); cbn; auto.
    + specialize (NS eq_refl SE). destruct (Forall_inv FT) as [->|Y]; [|contradiction]. rewrite (proj1 EA), Z.eqb_refl. cbn [negb]. rewrite andb_false_r. exact I.
Qed.
Lemma parseFrom_right f w t0 : match parseFrom c f (src0, w) t0 with Fail _ s' => pLost s' = true | _ => True end.
Proof.
  unfold parseFrom, start. set (s00 := mkP (src0, w) [] _ [] None [] [] false).
  destruct (pushNode_soft c GO NE QH HT RootNode root (Some t0) s00 GR ltac:(constructor)) as (s & st & -> & GS1 & P1 & P2 & P3 & P4 & P5). cbn [bind].
  rewrite GS in GS1. injection GS1 as <-. apply (parse_right f s). split; [|split; [exact P5|discriminate]].
  exists 1%nat, all. exists 1%nat, []. rewrite P3. split; [reflexivity|]. split; [|lia]. rewrite bare_shape, P4. cbn [s00 pStack map app cur ofShape].
  unfold more, vis. rewrite P1, P2. apply B_nil.
Qed.
End Main.
End P.
