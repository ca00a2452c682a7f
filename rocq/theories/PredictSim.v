(** Proofs: the parser follows the machine with a stack. *)
From Coq Require Import ZArith List Bool Lia Arith.
From Verif Require Import Base BaseProofs Grammar Rules RulesSpec Prop_Rules Parser ParserSpec ParserSafeSpec ParserFlowSpec ParserFuel ParserLook ParserWorld ParserEnd PredictSpec Predict.
Import ListNotations.
Open Scope Z_scope.

Section P.
Context {Tok Src W E Inst R : Type}.
Variable c : config Tok Src W E Inst R.
Notation g := (cGrammar c).
Notation pstate := (pstate Tok Src W E Inst R).
Notation nodeRec := (nodeRec Tok Inst).
Notation core := (core c).
Notation ruleOf := (ruleOf g).
Notation tokenMatches := (tokenMatches (cType c) (cText c) (cUpper c) g).

Hypothesis GO : grammarOk c.
Hypothesis NE : noErrors c.
Hypothesis QH : quietHooks c.
Hypothesis NT : cTokenHooks c = [].
Hypothesis HT : forall table, In table (cNodeHooks c) -> zlen (gNodes g) < zlen table.

(** ** Node hooks: no errors, the source stays *)
Definition srcOf (s : pstate) : Src := fst (pWorld s).
Definition shape (n : nodeRec) : Z * Z * Z := (nIndex n, nState n, nTypes n).
Definition calm (s s' : pstate) : Prop := srcOf s' = srcOf s /\ pTokens s' = pTokens s /\ pApplied s' = pApplied s /\ pStack s' = pStack s.
Lemma calm_refl s : calm s s. Proof. repeat split. Qed.
Lemma calm_trans a b d : calm a b -> calm b d -> calm a d.
Proof. unfold calm. intuition congruence. Qed.
Lemma calm_call ev (s : pstate) w : fst w = fst (pWorld s) -> calm s (log ev (setWorld s w)).
Proof. intros H. repeat split. exact H. Qed.

Lemma newNodes_calm node t : forall hooks layer s, exists s', newNodes c layer hooks node t s = Done tt s' /\ calm s s'.
Proof.
  induction hooks as [|[i|] hooks IH]; intros layer s; cbn [newNodes]; [exists s; split; [reflexivity|apply calm_refl]| |apply IH].
  pose proof (qh_newNode _ QH i node t (pWorld s)) as Q. pose proof (ne_newNode _ NE i node t (pWorld s)) as N.
  destruct (mNewNode (cMethods c) i node t (pWorld s)) as (w, e). cbn in Q, N. subst e. cbn [nret bind].
  destruct (IH (Datatypes.S layer) (log (EvNewNode layer i node t) (setWorld s w))) as (s' & E1 & C). exists s'. split; [exact E1|].
  eapply calm_trans; [apply calm_call, Q|exact C].
Qed.
Lemma handleTokens_calm t : forall hooks layer s, exists s', handleTokens c layer hooks t s = Done tt s' /\ calm s s'.
Proof.
  induction hooks as [|[i|] hooks IH]; intros layer s; cbn [handleTokens]; [exists s; split; [reflexivity|apply calm_refl]| |apply IH].
  pose proof (qh_token _ QH i t (pWorld s)) as Q. pose proof (ne_token _ NE i t (pWorld s)) as N.
  destruct (mHandleToken (cMethods c) i t (pWorld s)) as (w, e). cbn in Q, N. subst e. cbn [nret bind].
  destruct (IH (Datatypes.S layer) (log (EvToken layer i t) (setWorld s w))) as (s' & E1 & C). exists s'. split; [exact E1|].
  eapply calm_trans; [apply calm_call, Q|exact C].
Qed.
Lemma endNodes_calm : forall hooks layer s, exists l s', endNodes c layer hooks s = Done l s' /\ calm s s' /\ length l = length hooks.
Proof.
  induction hooks as [|[i|] hooks IH]; intros layer s; cbn [endNodes].
  - exists [], s. repeat split.
  - pose proof (qh_end _ QH i (pWorld s)) as Q. pose proof (ne_end _ NE i (pWorld s)) as N.
    destruct (mEndNode (cMethods c) i (pWorld s)) as (w, (x, e)). cbn in Q, N. subst e. cbn [nret bind].
    set (s1 := log (EvEnd layer i x) (setWorld s w)). set (s2 := if (layer =? 0)%nat && cWatchNodes c then setLast s1 x else s1).
    assert (C1 : calm s s2). { eapply calm_trans; [apply (calm_call (EvEnd layer i x) s w), Q|]. subst s2. destruct (_ && _); repeat split. }
    destruct (IH (Datatypes.S layer) s2) as (l & s' & E1 & C & L). exists (x :: l), s'. rewrite E1. cbn [bind]. split; [reflexivity|]. split; [eapply calm_trans; eassumption|cbn; congruence].
  - destruct (IH (Datatypes.S layer) s) as (l & s' & E1 & C & L). exists (None :: l), s'. rewrite E1. split; [reflexivity|]. split; [exact C|cbn; congruence].
Qed.
Lemma handleNodes_calm node : forall hooks layer results s, (length hooks <= length results)%nat -> exists s', handleNodes c layer hooks node results s = Done tt s' /\ calm s s'.
Proof.
  induction hooks as [|[i|] hooks IH]; intros layer results s L; cbn [handleNodes]; [exists s; split; [reflexivity|apply calm_refl]| |].
  - destruct results as [|x xs]; [cbn in L; lia|].
    pose proof (qh_node _ QH i node x (pWorld s)) as Q. pose proof (ne_node _ NE i node x (pWorld s)) as N.
    destruct (mHandleNode (cMethods c) i node x (pWorld s)) as (w, e). cbn in Q, N. subst e. cbn [nret bind].
    destruct (IH (Datatypes.S layer) xs (log (EvNode layer i node x) (setWorld s w))) as (s' & E1 & C); [cbn in L; lia|]. exists s'. split; [exact E1|].
    eapply calm_trans; [apply calm_call, Q|exact C].
  - apply IH. destruct results; cbn in *; lia.
Qed.
Lemma newHooks_calm node nt t : zget (gNodes g) node = Some nt -> forall tables layer s, (forall table, In table tables -> In table (cNodeHooks c)) ->
  exists l s', newHooks layer tables node t s = Done l s' /\ calm s s' /\ length l = length tables.
Proof.
  intros G. induction tables as [|table tables IH]; intros layer s H; cbn [newHooks]; [exists [], s; repeat split|].
  assert (B : exists i s1, getNodeHook layer table node t s = Done i s1 /\ calm s s1).
  { unfold getNodeHook. pose proof (HT table (H table (or_introl eq_refl))) as LT. apply zget_Some_inv in G.
    destruct (zget_range' table (node + 1)) as (h & G1); [lia|]. destruct (zget_range' table 0) as (any & G2); [lia|]. rewrite G1, G2.
    destruct (match h with Some _ => h | None => any end) as [hk|] eqn:HK; [|exists None, s; split; [reflexivity|apply calm_refl]].
    assert (IN : In (Some hk) table). { destruct h; [|subst any]; [injection HK as ->; eapply zget_In; exact G1|eapply zget_In; exact G2]. }
    pose proof (qh_create _ QH table hk node t (pWorld s) (H table (or_introl eq_refl)) IN) as Q. pose proof (ne_create _ NE table hk node t (pWorld s) (H table (or_introl eq_refl)) IN) as N.
    destruct (hk node t (pWorld s)) as (w, (i, e)). cbn in Q, N. subst e. cbn [nret bind]. eexists _, _. split; [reflexivity|]. apply calm_call, Q. }
  destruct B as (i & s1 & -> & C1). cbn [bind]. destruct (IH (Datatypes.S layer) s1) as (l & s' & -> & C & L); [intros; apply H; right; assumption|]. cbn [bind].
  exists (i :: l), s'. split; [reflexivity|]. split; [eapply calm_trans; eassumption|cbn; congruence].
Qed.
Lemma handleTokenList_calm hooks : forall ts s, exists s', handleTokenList c hooks ts s = Done tt s' /\ calm s s'.
Proof.
  induction ts as [|t ts IH]; intros s; cbn [handleTokenList]; [exists s; split; [reflexivity|apply calm_refl]|].
  destruct (handleTokens_calm t hooks 0 s) as (s1 & -> & C1). cbn [bind]. destruct (IH s1) as (s' & -> & C). exists s'. split; [reflexivity|]. eapply calm_trans; eassumption.
Qed.

(** the same stack up to hooks and side tokens *)
Definition soft (s s' : pstate) : Prop := srcOf s' = srcOf s /\ pTokens s' = pTokens s /\ pApplied s' = pApplied s /\ map shape (pStack s') = map shape (pStack s) /\
  map nHooks (pStack s') = map nHooks (pStack s).
Lemma calm_soft s s' : calm s s' -> soft s s'.
Proof. intros (A & B & C & D). unfold soft. rewrite D. auto. Qed.
Lemma soft_trans a b d : soft a b -> soft b d -> soft a d.
Proof. unfold soft. intuition congruence. Qed.
Lemma soft_refl s : soft s s. Proof. repeat split. Qed.
Lemma soft_sides (s : pstate) n ns x : pStack s = n :: ns -> soft s (setTop s (setNSides n x)).
Proof. intros H. unfold soft, setTop. cbn. rewrite H. repeat split. Qed.
Lemma handleNodeSides_soft s : exists s', handleNodeSides c s = Done tt s' /\ soft s s'.
Proof.
  unfold handleNodeSides. destruct (pStack s) as [|n ns] eqn:ST; [exists s; split; [reflexivity|apply soft_refl]|].
  destruct (handleTokenList_calm (nHooks n) (nSides n) s) as (s1 & -> & C). cbn [bind]. eexists. split; [reflexivity|].
  eapply soft_trans; [apply calm_soft, C|]. apply (soft_sides s1 n ns). destruct C as (_ & _ & _ & X). congruence.
Qed.
Lemma handleNodeToken_soft t s : pStack s <> [] -> exists s', handleNodeToken c t s = Done tt s' /\ soft s s'.
Proof.
  intros N. unfold handleNodeToken. destruct t as [t|]; [|exists s; split; [reflexivity|apply soft_refl]].
  destruct (pStack s) as [|n ns] eqn:ST; [congruence|]. destruct (isSideToken (cType c) g (Some t)).
  - eexists. split; [reflexivity|]. eapply soft_sides, ST.
  - destruct (handleNodeSides_soft s) as (s1 & -> & C1). cbn [bind]. destruct (handleTokens_calm t (nHooks n) 0 s1) as (s' & -> & C).
    exists s'. split; [reflexivity|]. eapply soft_trans; [exact C1|apply calm_soft, C].
Qed.

(** every node on the stack has as many hooks as there are layers *)
Definition hooked (s : pstate) : Prop := Forall (fun n => length (nHooks n) = length (cNodeHooks c)) (pStack s).
Lemma soft_hooked s s' : soft s s' -> hooked s -> hooked s'.
Proof.
  intros (_ & _ & _ & _ & X) H. unfold hooked in *. revert X H. generalize (pStack s') (pStack s). induction l as [|a l IH]; intros [|b m] X H; try discriminate; [constructor|].
  cbn in X. injection X as X1 X2. inversion H; subst. constructor; [congruence|]. eapply IH; eassumption.
Qed.

Fixpoint settleN (l : list (Z * Z * Z)) : list (Z * Z * Z) :=
  match l with (n, j, ty) :: l' => if j =? FinalState then settleN l' else l | [] => [] end.
Lemma popLoop_soft : forall stack sides s, pStack s = stack -> hooked s -> exists s', popLoop c stack sides s = Done tt s' /\
  srcOf s' = srcOf s /\ pTokens s' = pTokens s /\ pApplied s' = pApplied s /\ map shape (pStack s') = settleN (map shape stack) /\ hooked s'.
Proof.
  induction stack as [|n rest IH]; intros sides s ST HK; cbn [popLoop].
  - exists s. rewrite ST. auto 10.
  - cbn [map settleN shape]. unfold shape at 1. destruct (nState n =? FinalState) eqn:EF; cbn [negb].
    + assert (B : exists s1, match rest with [] => handleTokenList c (nHooks n) sides s | _ => Done tt s end = Done tt s1 /\ calm s s1).
      { destruct rest; [apply handleTokenList_calm|exists s; split; [reflexivity|apply calm_refl]]. }
      destruct B as (s1 & -> & C1). cbn [bind]. destruct (endNodes_calm (nHooks n) 0 s1) as (l & s2 & -> & C2 & L2). cbn [bind].
      pose proof (calm_trans _ _ _ C1 C2) as (E1 & E2 & E3 & E4). destruct rest as [|p rest'].
      { eexists. split; [reflexivity|]. cbn. repeat split; try assumption; constructor. }
      set (s3 := setStack s2 (p :: rest')). unfold hooked in HK. rewrite ST in HK. inversion HK as [|? ? K1 K2]; subst. pose proof K2 as K2'. inversion K2 as [|? ? K3 K4]; subst.
      destruct (handleNodes_calm (nIndex n) (nHooks p) 0 l s3) as (s4 & -> & C4); [lia|]. cbn [bind]. destruct C4 as (F1 & F2 & F3 & F4).
      destruct (IH sides s4) as (s' & -> & R1 & R2 & R3 & R4 & R5); [rewrite F4; reflexivity|unfold hooked; rewrite F4; exact K2'|].
      exists s'. split; [reflexivity|]. unfold s3, srcOf in *. cbn in *. split; [congruence|]. split; [congruence|]. split; [congruence|]. split; [exact R4|exact R5].
    + eexists. split; [reflexivity|]. unfold setTop. cbn. rewrite ST. cbn. repeat split. unfold hooked in *. cbn. rewrite ST in HK. inversion HK; subst. constructor; assumption.
Qed.
Lemma popNode_soft s n ns : pStack s = n :: ns -> hooked s -> exists s', popNode c s = Done tt s' /\
  srcOf s' = srcOf s /\ pTokens s' = pTokens s /\ pApplied s' = pApplied s /\ map shape (pStack s') = settleN (map shape (n :: ns)) /\ hooked s'.
Proof.
  intros ST HK. unfold popNode. rewrite ST. pose proof (soft_sides s n ns [] ST) as SF.
  destruct (popLoop_soft (pStack (setTop s (setNSides n []))) (nSides n) (setTop s (setNSides n [])) eq_refl (soft_hooked _ _ SF HK)) as (s' & -> & A & B & C & D & F).
  exists s'. split; [reflexivity|]. destruct SF as (S1 & S2 & S3 & S4 & _). rewrite S4, ST in D. repeat split; congruence || assumption.
Qed.
Lemma pushNode_soft node nt t s : zget (gNodes g) node = Some nt -> hooked s -> exists s' st, pushNode c node t s = Done tt s' /\ zget (gStates g) (gnFirst nt) = Some st /\
  srcOf s' = srcOf s /\ pTokens s' = pTokens s /\ pApplied s' = pApplied s /\ map shape (pStack s') = (node, gnFirst nt, sTypes st) :: map shape (pStack s) /\ hooked s'.
Proof.
  intros G HK. unfold pushNode. destruct (handleNodeSides_soft s) as (s1 & -> & C1). cbn [bind]. rewrite G.
  assert (B : exists s2, match pStack s1 with [] => Done tt s1 | n :: _ => newNodes c 0 (nHooks n) node t s1 end = Done tt s2 /\ calm s1 s2).
  { destruct (pStack s1); [exists s1; split; [reflexivity|apply calm_refl]|apply newNodes_calm]. }
  destruct B as (s2 & -> & C2). cbn [bind]. destruct (newHooks_calm node nt t G (cNodeHooks c) 0 s2) as (l & s3 & -> & C3 & L); [auto|]. cbn [bind].
  destruct (go_first _ GO node nt G) as (st & GS). rewrite GS. eexists _, st. split; [reflexivity|]. split; [reflexivity|].
  pose proof (soft_trans _ _ _ C1 (calm_soft _ _ (calm_trans _ _ _ C2 C3))) as SF. pose proof (soft_hooked _ _ SF HK) as HK'. destruct SF as (S1 & S2 & S3 & S4 & _).
  cbn. repeat split; try assumption. - unfold shape at 1. cbn. rewrite S4. reflexivity. - constructor; [exact L|exact HK'].
Qed.

(** ** The stack of the parser *)
Definition typed (x : Z * Z * Z) : Prop := let '(n, j, ty) := x in j <> FinalState -> exists st, zget (gStates g) j = Some st /\ ty = sTypes st.
Definition sim (S : list (Z * Z)) (s : pstate) : Prop :=
  map fst (map shape (pStack s)) = S /\ Forall typed (map shape (pStack s)) /\ hooked s /\ pTokens s = [] /\ pApplied s = [].
Lemma settleN_fst l : map fst (settleN l) = settle (map fst l).
Proof. induction l as [|((n, j), ty) l IH]; [reflexivity|]. cbn. destruct (j =? FinalState); [exact IH|reflexivity]. Qed.
Lemma settleN_typed l : Forall typed l -> Forall typed (settleN l).
Proof. induction 1 as [|((n, j), ty) l H F IH]; [constructor|]. cbn. destruct (j =? FinalState); [exact IH|constructor; assumption]. Qed.
Lemma settleN_id n j ty l : j <> FinalState -> settleN ((n, j, ty) :: l) = (n, j, ty) :: l.
Proof. intros H. cbn. apply Z.eqb_neq in H. rewrite H. reflexivity. Qed.

Lemma ruleOf_known j r : ruleOf j r -> (rState r = FinalState \/ exists st, zget (gStates g) (rState r) = Some st) /\
  (rNode r = SameNode \/ exists nt, zget (gNodes g) (rNode r) = Some nt) /\ FinalState <= rState r.
Proof.
  intros (st & rules & multi & rs & G & SR & SM & HR & IR).
  assert (IN : In r (gRules g)). { inversion HR as [r0 I0 _|m rs0 Im _ SL]; subst; [destruct IR as [<-|[]]; eapply zslice_In; eassumption|eapply zslice_In; eassumption]. }
  split; [apply (go_state _ GO), IN|]. split; [apply (go_node _ GO), IN|]. apply (proj1 (go_tables _ GO)), IN.
Qed.

Lemma apply_same S n j r t s : sim ((n, j) :: S) s -> ruleOf j r -> rNode r = SameNode ->
  exists s', applyRule c t r s = Done (negb (rToken r =? AnyToken) || match t with None => true | Some _ => false end) s' /\
    sim (settle ((n, rState r) :: S)) s' /\ srcOf s' = srcOf s.
Proof.
  intros (SH & TY & HK & PT & PA) RU RN. destruct (ruleOf_known j r RU) as (KS & _ & FS). unfold applyRule.
  destruct (pStack s) as [|nr ns] eqn:ST; [discriminate|]. cbn [map] in SH. unfold shape in SH at 1. cbn [fst] in SH. injection SH as SN SJ SS.
  rewrite RN, Z.eqb_refl. cbn [andb negb].
  assert (NR : (rState r =? repeatState) = false). { apply Z.eqb_neq. unfold FinalState, repeatState in *. lia. } rewrite NR. cbn zeta.
  set (cons := negb (rToken r =? AnyToken) || match t with None => true | Some _ => false end).
  assert (B : exists nr', (if rState r =? FinalState then Some (setNState nr (rState r)) else do st <- zget (gStates g) (rState r); Some (setNTypes (setNState nr (rState r)) (sTypes st))) = Some nr' /\
    nIndex nr' = n /\ nState nr' = rState r /\ nHooks nr' = nHooks nr /\ typed (shape nr')).
  { destruct (Z.eqb_spec (rState r) FinalState) as [EF|NF].
    - eexists. split; [reflexivity|]. repeat split; [exact SN|]. unfold typed, shape. cbn. intros X. congruence.
    - destruct KS as [X|(st & G)]; [congruence|]. rewrite G. cbn [obind]. eexists. split; [reflexivity|]. repeat split; [exact SN|]. unfold typed, shape. cbn. intros _. eauto. }
  destruct B as (nr' & -> & I1 & I2 & I3 & I4).
  assert (ST1 : pStack (setTop s nr') = nr' :: ns). { unfold setTop. cbn. rewrite ST. reflexivity. }
  assert (HK1 : hooked (setTop s nr')). { unfold hooked in *. rewrite ST1. rewrite ST in HK. inversion HK; subst. constructor; [congruence|assumption]. }
  assert (B : exists s1, (if cons then handleNodeToken c t (setTop s nr') else Done tt (setTop s nr')) = Done tt s1 /\ soft (setTop s nr') s1).
  { destruct cons; [apply handleNodeToken_soft; rewrite ST1; discriminate|eexists; split; [reflexivity|apply soft_refl]]. }
  destruct B as (s1 & -> & SF). cbn [bind]. pose proof (soft_hooked _ _ SF HK1) as HK2. destruct SF as (S1 & S2 & S3 & S4 & S5). rewrite ST1 in S4.
  destruct (pStack s1) as [|m ms] eqn:ST2; [discriminate|]. cbn [map] in S4. injection S4 as T1 T2 T3 T4. rewrite T2, I2.
  cbn [map] in TY. inversion TY as [|? ? TY1 TY2]; subst.
  assert (TYA : Forall typed (map shape (pStack s1))). { rewrite ST2. cbn [map]. unfold shape at 1. rewrite T1, T2, T3, T4. constructor; [exact I4|exact TY2]. }
  destruct (Z.eqb_spec (rState r) FinalState) as [EF|NF].
  - destruct (popNode_soft s1 m ms ST2 HK2) as (s' & -> & P1 & P2 & P3 & P4 & P5). cbn [bind]. exists s'. split; [reflexivity|]. split; [|unfold srcOf in *; cbn in *; congruence].
    split; [|split; [|split; [exact P5|split; [rewrite P2, S2; exact PT|rewrite P3, S3; exact PA]]]].
    + rewrite P4, settleN_fst. cbn [map]. unfold shape at 1. cbn [fst]. rewrite T1, T2, T4, I2, I1. reflexivity.
    + rewrite P4, <- ST2. apply settleN_typed, TYA.
  - cbn [bind]. exists s1. split; [reflexivity|]. split; [|unfold srcOf in *; cbn in *; congruence].
    split; [|split; [exact TYA|split; [exact HK2|split; [rewrite S2; exact PT|rewrite S3; exact PA]]]].
    rewrite ST2. cbn [map settle]. unfold shape at 1. cbn [fst]. rewrite T1, T2, T4, I2, I1. apply Z.eqb_neq in NF. rewrite NF. reflexivity.
Qed.
Lemma apply_node S n j r nt t s : sim ((n, j) :: S) s -> ruleOf j r -> rNode r <> SameNode -> zget (gNodes g) (rNode r) = Some nt ->
  exists s', applyRule c (Some t) r s = Done false s' /\ sim ((rNode r, gnFirst nt) :: (n, rState r) :: S) s' /\ srcOf s' = srcOf s.
Proof.
  intros (SH & TY & HK & PT & PA) RU RN GN. destruct (ruleOf_known j r RU) as (KS & _ & FS). unfold applyRule.
  destruct (pStack s) as [|nr ns] eqn:ST; [discriminate|]. cbn [map] in SH. unfold shape in SH at 1. cbn [fst] in SH. injection SH as SN SJ SS.
  apply Z.eqb_neq in RN. rewrite RN. cbn [andb orb negb].
  assert (NR : (rState r =? repeatState) = false). { apply Z.eqb_neq. unfold FinalState, repeatState in *. lia. } rewrite NR. cbn zeta.
  assert (B : exists nr', (if rState r =? FinalState then Some (setNState nr (rState r)) else do st <- zget (gStates g) (rState r); Some (setNTypes (setNState nr (rState r)) (sTypes st))) = Some nr' /\
    nIndex nr' = n /\ nState nr' = rState r /\ nHooks nr' = nHooks nr /\ typed (shape nr')).
  { destruct (Z.eqb_spec (rState r) FinalState) as [EF|NF].
    - eexists. split; [reflexivity|]. repeat split; [exact SN|]. unfold typed, shape. cbn. intros X. congruence.
    - destruct KS as [X|(st & G)]; [congruence|]. rewrite G. cbn [obind]. eexists. split; [reflexivity|]. repeat split; [exact SN|]. unfold typed, shape. cbn. intros _. eauto. }
  destruct B as (nr' & -> & I1 & I2 & I3 & I4).
  assert (ST1 : pStack (setTop s nr') = nr' :: ns). { unfold setTop. cbn. rewrite ST. reflexivity. }
  assert (HK1 : hooked (setTop s nr')). { unfold hooked in *. rewrite ST1. rewrite ST in HK. inversion HK; subst. constructor; [congruence|assumption]. }
  destruct (pushNode_soft (rNode r) nt (Some t) (setTop s nr') GN HK1) as (s1 & st & -> & GS & P1 & P2 & P3 & P4 & P5). cbn [bind].
  destruct (pStack s1) as [|m ms] eqn:ST2; [discriminate|]. pose proof P4 as P4'. cbn [map] in P4. injection P4 as T1 T2 T3 T4.
  assert (NF : nState m <> FinalState). { rewrite T2. intros X. rewrite X in GS. discriminate. }
  apply Z.eqb_neq in NF. rewrite NF. cbn [bind]. exists s1. split; [reflexivity|]. split; [|unfold srcOf in *; cbn in *; congruence].
  rewrite ST1 in P4'. cbn [map] in TY. inversion TY as [|? ? TY1 TY2]; subst. unfold sim. rewrite ST2, P4'.
  split; [|split; [|split; [exact P5|split; [rewrite P2; exact PT|rewrite P3; exact PA]]]].
  - cbn [map fst]. unfold shape at 1. cbn [fst]. rewrite I2, I1. reflexivity.
  - cbn [map]. constructor; [cbn; intros _; eauto|]. constructor; assumption.
Qed.
Lemma apply_side S n j t tt s : sim ((n, j) :: S) s -> j <> FinalState -> tt <> AnyToken ->
  exists s', applyRule c (Some t) (mkRule tt repeatState SameNode) s = Done true s' /\ sim ((n, j) :: S) s' /\ srcOf s' = srcOf s.
Proof.
  intros (SH & TY & HK & PT & PA) NF NA. unfold applyRule. destruct (pStack s) as [|nr ns] eqn:ST; [discriminate|]. pose proof SH as SH'. cbn [map] in SH. unfold shape in SH at 1. cbn [fst] in SH. injection SH as SN SJ SS.
  cbn [rNode rState rToken]. rewrite !Z.eqb_refl. apply Z.eqb_neq in NA. rewrite NA. cbn [negb andb orb].
  assert (ST1 : pStack (setTop s nr) = nr :: ns). { unfold setTop. cbn. rewrite ST. reflexivity. }
  destruct (handleNodeToken_soft (Some t) (setTop s nr)) as (s1 & -> & SF); [rewrite ST1; discriminate|]. cbn [bind].
  assert (HK1 : hooked (setTop s nr)). { unfold hooked in *. rewrite ST1, <- ST. exact HK. } pose proof (soft_hooked _ _ SF HK1) as HK2.
  destruct SF as (S1 & S2 & S3 & S4 & S5). rewrite ST1 in S4. destruct (pStack s1) as [|m ms] eqn:ST2; [discriminate|]. pose proof S4 as S4'. cbn [map] in S4. injection S4 as T1 T2 T3 T4.
  assert (NF' : (nState m =? FinalState) = false). { apply Z.eqb_neq. congruence. } rewrite NF'. cbn [bind]. exists s1. split; [reflexivity|]. split; [|unfold srcOf in *; cbn in *; congruence].
  unfold sim. rewrite ST2, S4'. split; [exact SH'|]. split; [exact TY|]. split; [exact HK2|]. split; [rewrite S2; exact PT|rewrite S3; exact PA].
Qed.
Lemma checkCtx_calm s : exists s', checkCtx c s = Done tt s' /\ calm s s'.
Proof.
  unfold checkCtx. pose proof (qh_ctx _ QH (pWorld s)) as Q. pose proof (ne_ctx _ NE (pWorld s)) as N. destruct (cCtx c (pWorld s)) as (w, e). cbn in Q, N. subst e.
  eexists. split; [reflexivity|]. apply calm_call, Q.
Qed.
Lemma calm_sim S s s' : calm s s' -> sim S s -> sim S s'.
Proof. intros (A & B & C & D) (X1 & X2 & X3 & X4 & X5). unfold sim, hooked in *. rewrite D, B, C. auto. Qed.
End P.
