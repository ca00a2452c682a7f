(** The choice made by a lookahead in terms of variants. *)
From Coq Require Import ZArith List Bool Lia Arith.
From Verif Require Import Base BaseProofs Grammar Rules RulesSpec Prop_Rules Parser ParserSpec ParserProofs ParserInv ParserStream ParserLook LookLongest VariantSpec.
Import ListNotations.
Open Scope Z_scope.

Section P.
Context {Tok Src W E Inst R : Type}.
Variable c : config Tok Src W E Inst R.
Notation g := (cGrammar c).
Notation pstate := (pstate Tok Src W E Inst R).
Notation res := (res Tok Src W E Inst R).
Notation nodeRec := (nodeRec Tok Inst).
Notation branch := (branch Tok Inst).
Notation look := (Parser.look (Tok:=Tok) (Inst:=Inst)).
Notation findRules := (findRules (cType c) (cText c) (cUpper c) g).
Notation step := (ParserLook.step c).
Notation brun := (ParserLook.brun c).

(** ** Tokens are read without touching branches *)
Definition sameLost {A} (s : pstate) (m : res A) : Prop := match m with Done _ s' | Fail _ s' | NoFuel s' => pLost s' = pLost s | Panic => True end.
Lemma lost_bind {A B} (s : pstate) (m : res A) (k : A -> pstate -> res B) : sameLost s m -> (forall a s', sameLost s' (k a s')) -> sameLost s (bind m k).
Proof. destruct m as [a s'|e s'| |s']; cbn; auto. intros H HK. specialize (HK a s'). destruct (k a s') as [b s2|e s2| |s2]; cbn in *; auto; congruence. Qed.
Lemma lost_ret e (s s' : pstate) : pLost s' = pLost s -> sameLost s (ret e s').
Proof. intros H. destruct e; exact H. Qed.
Lemma lost_handleToken t layer hooks s : sameLost s (handleToken c t layer hooks s).
Proof.
  unfold handleToken. destruct t as [t|]; [|reflexivity]. apply lost_bind.
  - unfold checkCtx. destruct (cCtx c (pWorld s)) as [w [e|]]; reflexivity.
  - intros _ s1. destruct (hookFor c hooks t) as [[hook|]|]; [|reflexivity|exact I].
    destruct (runHook c _ _ _ _) as [[tc w] [[emit extra] e]]. apply lost_bind; [apply lost_ret; auto|]. intros. reflexivity.
Qed.
Lemma lost_appendExtra layer : forall extra s, sameLost s (appendExtra c layer extra s).
Proof.
  induction extra as [|t r IH]; intros s; cbn [appendExtra]; [reflexivity|]. destruct (isValidType c (cType c t)); cbn [negb]; [|reflexivity].
  specialize (IH (setQueue s layer (nth layer (pQueues s) [] ++ [t]))). exact IH.
Qed.
Lemma lost_pullToken fuel types : forall hs layer s, sameLost s (pullToken c fuel types hs layer s).
Proof.
  induction hs as [|hooks hs IH]; intros layer s; cbn [pullToken].
  - destruct (fetchToken c types _) as [src [t e]]. apply lost_bind; [apply lost_ret; auto|]. intros. reflexivity.
  - destruct (nth layer (pQueues s) []); [|reflexivity].
    set (pull := pullToken c fuel types hs (S layer)) in *. assert (HP : forall s, sameLost s (pull s)) by (intros; apply IH; auto). clearbody pull.
    generalize fuel at 1. intros f. revert s. induction f as [|f IHf]; intros s; cbn [pullLoop]; [reflexivity|].
    apply lost_bind; [apply HP; auto|]. intros t s1. apply lost_bind; [apply lost_handleToken; auto|]. intros [emit extra] s2.
    apply lost_bind; [apply lost_appendExtra; auto|]. intros _ s3. destruct emit; [reflexivity|].
    destruct (nth layer (pQueues s3) []); [apply IHf; auto|reflexivity].
Qed.
Lemma lost_nextToken fuel types s : sameLost s (nextToken c fuel types s).
Proof.
  unfold nextToken. destruct (pTokens s); [|reflexivity]. revert s. induction fuel as [|f IH]; intros s; cbn [nextLoop]; [reflexivity|].
  apply lost_bind; [apply lost_pullToken; auto|]. intros t s1. destruct (_ && _); [reflexivity|apply IH; auto].
Qed.

(** ** The whole lookahead *)
Section Start.
Variable s0 : list nodeRec.
Definition stopped (x : list (option Tok) * list rule) (s' : pstate) : Prop :=
  (forall rs1 ls1 rs2 ls2, brun s0 (fst x) rs1 ls1 [] -> brun s0 (fst x) rs2 ls2 [] -> rs1 = rs2) \/
  (exists fuel types s e, nextToken c fuel types s = Fail e s') \/
  (forall rs n ls, brun s0 (fst x) rs (n :: ls) [] -> nTypes n = 0).

Lemma lookTypes_zero (store : list branch) : forall ids, lookTypes store ids = 0 -> forall b br n ls, In b ids -> nth_error store b = Some br -> bStack br = n :: ls -> nTypes n = 0.
Proof.
  induction ids as [|b0 ids IH]; intros H b br n ls HI EB EN; [destruct HI|]. cbn [lookTypes] in H. apply Z.lor_eq_0_iff in H as [H1 H2].
  destruct HI as [->|HI]; [rewrite EB, EN in H1; exact H1|eapply IH; eauto].
Qed.

Lemma lookLoop_longest : forall fuel t tokens k s x s', lookLoop c fuel t tokens k s = Done x s' -> pLost s' = false ->
  (pLost s = false -> KI c s0 (tokens ++ [t]) t (kNext k) (mkLook (kStore k) [] [] None (kError k)) /\ allTraced c s0 tokens k /\ kNext k <> []) ->
  pLost s = false /\ longest c s0 x /\ stopped x s' /\ exists more, fst x = tokens ++ t :: more.
Proof.
  induction fuel as [|f IH]; intros t tokens k s x s' H PL HI; cbn [lookLoop] in H; [discriminate|].
  destruct (lookRound c (S f) t 0 (kNext k) _ (pLost s)) as [[[k1 lost]|]|] eqn:ER; try discriminate.
  assert (LOST : lost = false -> pLost s = false /\ KI c s0 (tokens ++ [t]) t [] k1 /\ kQueue k1 = [] /\ KC c s0 (tokens ++ [t]) t [] [] k1).
  { intros ->. assert (PS : pLost s = false) by (destruct (pLost s) eqn:X; auto; apply lookRound_lost in ER; [discriminate|auto]).
    split; auto. rewrite PS in ER. destruct (HI PS) as (A1 & A2 & A3). destruct (lookRound_ok c s0 _ _ _ _ _ _ _ _ A1 eq_refl ER) as [B1 B2]. split; [exact B1|]. split; [exact B2|].
    eapply (KC_round c s0); [exact A1|reflexivity| |exact ER]. apply KC_start; assumption. }
  clear ER HI.
  assert (FIN : forall s2, match match kNext k1 with b :: _ => Some b | [] => match kSuccess k1 with Some b => Some b | None => kError k1 end end with
      | None => Panic | Some b => match nth_error (kStore k1) b with Some br => Done (tokens ++ [t], bRules br) s2 | None => Panic end end = Done x s' ->
      pLost s2 = lost -> s2 = s' /\ pLost s = false /\ longest c s0 x /\ fst x = tokens ++ [t]).
  { intros s2 HF L2. destruct (match kNext k1 with b :: _ => Some b | [] => _ end) as [b|] eqn:EC; [|discriminate]. destruct (nth_error (kStore k1) b) as [br|] eqn:EB; [|discriminate].
    injection HF as <- <-. destruct (LOST ltac:(congruence)) as (A1 & A2 & A3 & A4). split; [reflexivity|]. split; [exact A1|]. split; [|reflexivity]. eapply choice; eauto. }
  destruct (length (kNext k1) <=? 1)%nat eqn:EL.
  - destruct (FIN _ H eq_refl) as (X0 & X1 & X2 & X3). split; [exact X1|]. split; [exact X2|]. split; [|exists []; exact X3]. left. rewrite X3.
    destruct (LOST ltac:(rewrite <- X0 in PL; exact PL)) as (_ & _ & A3 & A4). pose proof (KC_traced c s0 _ _ _ A4 A3) as AT. apply Nat.leb_le in EL.
    intros rs1 ls1 rs2 ls2 B1 B2. destruct (AT _ _ B1) as (b1 & I1 & E1). destruct (AT _ _ B2) as (b2 & I2 & E2).
    destruct (kNext k1) as [|b [|b' nx]]; [destruct I1| |cbn in EL; lia]. destruct I1 as [<-|[]]. destruct I2 as [<-|[]]. congruence.
  - destruct (lookTypes (kStore k1) (kNext k1) =? 0) eqn:ET.
    + destruct (FIN _ H eq_refl) as (X0 & X1 & X2 & X3). split; [exact X1|]. split; [exact X2|]. split; [|exists []; exact X3]. right. right. rewrite X3.
      destruct (LOST ltac:(rewrite <- X0 in PL; exact PL)) as (_ & _ & A3 & A4). pose proof (KC_traced c s0 _ _ _ A4 A3) as AT. apply Z.eqb_eq in ET.
      intros rs n ls B. destruct (AT _ _ B) as (b & I1 & E1). eapply (lookTypes_zero _ _ ET); eauto. reflexivity.
    + pose proof (lost_nextToken (S f) (lookTypes (kStore k1) (kNext k1)) (setLost s lost)) as LN. cbn [pLost setLost] in LN.
      destruct (nextToken c (S f) (lookTypes (kStore k1) (kNext k1)) (setLost s lost)) as [t2 s2|e s2| |s2] eqn:EN; cbn [sameLost] in LN; try discriminate.
      * destruct (IH t2 (tokens ++ [t]) k1 s2 x s' H PL) as (P2 & A1 & A2 & more & A3).
        -- intros P2. destruct (LOST ltac:(rewrite P2 in LN; auto)) as (_ & B2 & B3 & B4). split; [apply (KI_start c s0 _ _ _ _ _ B2 B3)|]. split; [apply (KC_traced c s0 _ _ _ B4 B3)|].
           destruct (kNext k1); [discriminate|]. discriminate.
        -- split; [destruct (LOST ltac:(rewrite P2 in LN; auto)) as (X & _); exact X|]. split; [exact A1|]. split; [exact A2|]. exists (t2 :: more). rewrite A3, <- app_assoc. reflexivity.
      * destruct (FIN s2 H LN) as (X0 & X1 & X2 & X3). split; [exact X1|]. split; [exact X2|]. split; [|exists []; exact X3]. right. left. subst s2. eauto.
Qed.
End Start.

Lemma resolveConflict_longest fuel t s n ns x s' : resolveConflict c fuel t s = Done x s' -> pStack s = n :: ns -> pLost s' = false ->
  pLost s = false /\ longest c [bare n] x /\ stopped [bare n] x s' /\ exists more, fst x = t :: more.
Proof.
  intros H HS PL. unfold resolveConflict in H. rewrite HS in H. change (mkNodeRec [] [] (nTypes n) (nIndex n) (nState n)) with (bare n) in H.
  apply (lookLoop_longest [bare n] fuel t [] _ s x s' H PL). intros _. cbn [kStore kNext kQueue kSuccess kError app].
  assert (B0 : brun [bare n] [t] [] [bare n] [t]) by constructor. split; [constructor; cbn [kStore kNext kQueue app]|split].
  - apply Forall_cons; [exists [t]; exact B0|constructor].
  - apply Forall_cons; [|constructor]. exists (mkBranch [bare n] []). split; [reflexivity|exact B0].
  - constructor.
  - constructor; [intros []|constructor].
  - intros rs ls B. apply brun_nothing in B as (-> & -> & _). exists 0%nat. cbn. auto.
  - discriminate.
Qed.

(** ** Variants *)
Notation offers := (offers (cType c) (cText c) (cUpper c) g).
Notation variant := (variant (cType c) (cText c) (cUpper c) g).
Definition pr (n : nodeRec) : Z * Z := (nIndex n, nState n).

Hypothesis TO : tablesOk g.
Lemma offers_find t i st l r : zget (gStates g) i = Some st -> findRules t st = Some l -> In r l -> offers t i r.
Proof.
  intros ES EF HI. destruct (proj2 TO i st ES) as (rules & multi & SO & SM). unfold Rules.findRules in EF. destruct (isSideToken (cType c) g t) eqn:SD.
  - destruct t as [t|]; [|discriminate]. injection EF as <-. destruct HI as [<-|[]]. eapply O_side; [reflexivity| |exact ES]. apply isSideToken_spec. exact SD.
  - assert (NS : ~ isSide (cType c) g t) by (intros H; apply isSideToken_spec in H; congruence). clear SD.
    destruct (possibleRuleKeys (cType c) (cText c) (cUpper c) g t) as [keys|] eqn:EK; [|discriminate].
    assert (RG : forall tok, t = Some tok -> cType c tok < 0 \/ exists d, zget (gTokens g) (cType c tok) = Some d).
    { intros tok ->. cbn [possibleRuleKeys] in EK. destruct (Z.leb_spec 0 (cType c tok)); [|left; auto]. right. destruct (zget (gTokens g) (cType c tok)); [eauto|discriminate]. }
    assert (K : keysOf (cType c) (cText c) (cUpper c) g t keys).
    { destruct (keys_spec (cType c) (cText c) (cUpper c) g t RG) as (keys' & E1 & K). rewrite EK in E1. injection E1 as <-. auto. }
    cbn [obind] in EF. destruct SO as [E1 E2 S1 S2 S3 S4] eqn:ESO. rewrite E1, E2 in EF. cbn [obind] in EF.
    destruct (findByKeys_spec g st rules multi SO keys) as (rs & E3 & SEL). rewrite E3 in EF. injection EF as <-.
    eapply O_rule; [exact NS| |exact ES|exact E1|exact E2|exact K|exact SEL|exact HI].
    intros tok ET. destruct (RG tok ET) as [X|(d & X)]; [pose proof (zlen_nonneg (gTokens g)); lia|]. apply zget_Some_inv in X. lia.
Qed.
Lemma find_offers t i r : offers t i r -> exists st l, zget (gStates g) i = Some st /\ findRules t st = Some l /\ In r l.
Proof.
  intros [tok st -> HS ES|st rules multi keys rs r' NS RG ES E1 E2 K SEL HI].
  - exists st. eexists. split; [exact ES|]. split; [apply side_token_rule; exact HS|left; reflexivity].
  - destruct (proj2 TO i st ES) as (rules' & multi' & SO & SM). pose proof (so_rules _ _ _ _ SO) as X1. pose proof (so_multi _ _ _ _ SO) as X2. rewrite E1 in X1. rewrite E2 in X2. injection X1 as <-. injection X2 as <-.
    destruct (rule_lookup_priority (cType c) (cText c) (cUpper c) g st rules multi t keys SO NS RG K) as (rs' & F & SEL').
    destruct (rule_lookup_unique (cType c) (cText c) (cUpper c) g st rules multi t keys keys rs rs' SO K K SEL SEL') as (_ & <- & _). eauto.
Qed.

Lemma dropped_map (l : list nodeRec) : dropped (map pr l) = map pr (dryPop l).
Proof. induction l as [|n l IH]; [reflexivity|]. cbn [map dropped dryPop pr]. destruct (nState n =? FinalState); [exact IH|reflexivity]. Qed.
Lemma takes_dec (t : option Tok) r : (rNode r =? SameNode) && negb (rToken r =? AnyToken) || match t with None => true | Some _ => false end = true <-> takes t r.
Proof.
  unfold takes. destruct t as [t|]; [|rewrite orb_true_r; split; auto]. rewrite orb_false_r, andb_true_iff, negb_true_iff, Z.eqb_eq, Z.eqb_neq.
  split; [auto|]. intros [H|H]; [discriminate|exact H].
Qed.
Lemma dryRule_eq t r n ls : dryRule c t r (n :: ls) =
  (do n' <- (if rState r =? repeatState then Some n else let n := setNState n (rState r) in if rState r =? FinalState then Some n else do st <- zget (gStates g) (rState r); Some (setNTypes n (sTypes st)));
   do stack <- (if rNode r =? SameNode then Some (n' :: ls) else do nt <- zget (gNodes g) (rNode r); do st <- zget (gStates g) (gnFirst nt); Some (mkNodeRec [] [] (sTypes st) (rNode r) (gnFirst nt) :: n' :: ls));
   Some ((rNode r =? SameNode) && negb (rToken r =? AnyToken) || match t with None => true | Some _ => false end, dryPop stack)).
Proof.
  unfold dryRule. destruct (if rState r =? repeatState then Some n else _) as [n'|]; [|reflexivity]. cbn [obind].
  match goal with |- obind ?a _ = obind ?b _ => change b with a; destruct a as [stack|] end; [|reflexivity]. cbn [obind]. rewrite dryPop_end. reflexivity.
Qed.
Lemma moves_dry t r n ls cons ls' : dryRule c t r (n :: ls) = Some (cons, ls') -> moves g r (map pr (n :: ls)) (map pr ls') /\ (cons = true <-> takes t r).
Proof.
  rewrite dryRule_eq. pose proof (takes_dec t r) as TD. set (cc := _ || _) in *.
  destruct (if rState r =? repeatState then Some n else _) as [n'|] eqn:EN; [|discriminate]. cbn [obind].
  assert (TU : turns g (nState n) r (nState n') /\ nIndex n' = nIndex n).
  { destruct (Z.eqb_spec (rState r) repeatState) as [ER|ER]; [injection EN as <-; split; [apply T_same; exact ER|reflexivity]|].
    destruct (Z.eqb_spec (rState r) FinalState) as [EF|EF]; [injection EN as <-; split; [|reflexivity]; cbn [nState setNState]; rewrite EF; apply T_final; exact EF|].
    destruct (zget (gStates g) (rState r)) as [st|] eqn:ES; [|discriminate]. injection EN as <-. split; [|reflexivity]. cbn. eapply T_state; eauto. }
  destruct TU as [TU TI]. destruct (Z.eqb_spec (rNode r) SameNode) as [EM|EM]; cbn [obind].
  - intros H. match type of H with Some (_, ?d) = _ => remember d as dp eqn:EDP end. injection H as <- <-. split; [|exact TD]. rewrite EDP, <- dropped_map.
    match goal with |- context [dropped ?x] => change (dropped x) with (dropped ((nIndex n', nState n') :: map pr ls)) end. rewrite TI. apply M_same; assumption.
  - destruct (zget (gNodes g) (rNode r)) as [d|] eqn:ED; [|discriminate]. cbn [obind]. destruct (zget (gStates g) (gnFirst d)) as [st|] eqn:ES; [|discriminate]. cbn [obind].
    intros H. match type of H with Some (_, ?d) = _ => remember d as dp eqn:EDP end. injection H as <- <-. split; [|exact TD]. rewrite EDP, <- dropped_map. 
    match goal with |- context [dropped ?x] => change (dropped x) with (dropped ((rNode r, gnFirst d) :: (nIndex n', nState n') :: map pr ls)) end. rewrite TI. eapply M_new; eauto.
Qed.
Lemma turns_fun i r j j' : turns g i r j -> turns g i r j' -> j = j'.
Proof. intros A B. destruct A, B; try congruence; unfold FinalState, repeatState in *; congruence. Qed.
Lemma moves_fun r a b b' : moves g r a b -> moves g r a b' -> b = b'.
Proof.
  intros A B. destruct A as [n i l j EM TU|n i l j d st EM TU ED ES]; inversion B as [n1 i1 l1 j1 EM1 TU1|n1 i1 l1 j1 d1 st1 EM1 TU1 ED1 ES1]; subst; try contradiction;
    pose proof (turns_fun _ _ _ _ TU TU1); subst; [reflexivity|]. rewrite ED in ED1. injection ED1 as <-. reflexivity.
Qed.
Lemma dry_moves t r n ls l' : moves g r (map pr (n :: ls)) l' -> exists cons ls', dryRule c t r (n :: ls) = Some (cons, ls') /\ map pr ls' = l' /\ (cons = true <-> takes t r).
Proof.
  intros M. assert (X : exists cons ls', dryRule c t r (n :: ls) = Some (cons, ls')).
  { rewrite dryRule_eq. assert (TT : forall i j, turns g i r j -> exists n', (if rState r =? repeatState then Some n else let n := setNState n (rState r) in if rState r =? FinalState then Some n else do st <- zget (gStates g) (rState r); Some (setNTypes n (sTypes st))) = Some n').
    { intros i j TU. destruct (Z.eqb_spec (rState r) repeatState); [eauto|]. cbn. destruct (Z.eqb_spec (rState r) FinalState); [eauto|].
      destruct TU as [H|H|st H H2]; [contradiction|contradiction|]. rewrite H2. cbn. eauto. }
    inversion M as [n0 i l j EM TU|n0 i l j d st EM TU ED ES]; subst; destruct (TT _ _ TU) as (n' & ->); cbn [obind].
    - rewrite EM. rewrite Z.eqb_refl. cbn [obind]. eauto.
    - destruct (Z.eqb_spec (rNode r) SameNode); [contradiction|]. rewrite ED. cbn [obind]. rewrite ES. cbn [obind]. eauto. }
  destruct X as (cons & ls' & HD). destruct (moves_dry _ _ _ _ _ _ HD) as [M2 TD]. exists cons, ls'. split; [exact HD|]. split; [|exact TD].
  exact (moves_fun _ _ _ _ M2 M).
Qed.

Lemma nth_skip {A} : forall (l : list A) k x r, skipn k l = x :: r -> nth_error l k = Some x /\ skipn (S k) l = r /\ (k < length l)%nat.
Proof. induction l as [|y l IH]; intros [|k] x r H; try discriminate; [injection H as <- <-; cbn; repeat split; lia|]. destruct (IH k x r H) as (A1 & A2 & A3). cbn in *. repeat split; auto. lia. Qed.
Lemma variant_run n ts rs ls rem : brun [n] ts rs ls rem -> exists k, variant (pr n) ts rs k (map pr ls) /\ rem = skipn k ts /\ (k <= length ts)%nat.
Proof.
  intros B. induction B as [ts|ts rs ls rem r ls' rem' B (k & IH1 & IH2 & IH3) S].
  - exists 0%nat. split; [apply V_start|]. split; [reflexivity|lia].
  - inversion S as [n1 ls1 t toks r1 st l cons ls2 A1 A2 A3 A4]; subst. match goal with H : t :: toks = skipn k ts |- _ => symmetry in H; destruct (nth_skip _ _ _ _ H) as (N1 & N2 & N3) end.
    destruct (moves_dry _ _ _ _ _ _ A4) as [M TD]. pose proof (offers_find _ _ _ _ _ A1 A2 A3) as OF. destruct cons.
    + exists (Datatypes.S k). split; [|split; [auto|lia]]. eapply V_take; [exact IH1|exact N1|exact OF|exact M|apply TD; reflexivity].
    + exists k. split; [|split; [auto|lia]]. eapply V_skip; [exact IH1|exact N1|exact OF|exact M|]. intros X. apply TD in X. discriminate.
Qed.
Lemma skip_nth {A} : forall (l : list A) k x, nth_error l k = Some x -> skipn k l = x :: skipn (S k) l /\ (k < length l)%nat.
Proof. induction l as [|y l IH]; intros [|k] x H; try discriminate; [injection H as <-; cbn; split; [reflexivity|lia]|]. destruct (IH k x H) as [A1 A2]. cbn in *. split; [exact A1|lia]. Qed.
Lemma run_variant n ts rs k l : variant (pr n) ts rs k l -> exists ls, brun [n] ts rs ls (skipn k ts) /\ map pr ls = l /\ (k <= length ts)%nat.
Proof.
  intros V. induction V as [|rs k l t m i l' r V (ls & IH1 & IH2 & IH3) N1 OF M TK|rs k l t m i l' r V (ls & IH1 & IH2 & IH3) N1 OF M TK].
  - exists [n]. split; [constructor|]. split; [reflexivity|lia].
  - destruct ls as [|n1 ls]; [discriminate|]. destruct (skip_nth _ _ _ N1) as [N2 N3]. rewrite N2 in IH1.
    destruct (find_offers _ _ _ OF) as (st & lr & A1 & A2 & A3). assert (EI : nState n1 = i) by (cbn [map] in IH2; change (snd (pr n1) = i); replace (pr n1) with (m, i) by congruence; reflexivity). rewrite <- IH2 in M. destruct (dry_moves t r n1 ls l' M) as (cons & ls' & HD & HM & TD).
    destruct cons; [|exfalso; assert (false = true) by (apply TD; exact TK); discriminate]. exists ls'. split; [|split; [exact HM|lia]].
    eapply B_snoc; [exact IH1|]. rewrite <- EI in A1. apply (ST c n1 ls t (skipn (S k) ts) r st lr true ls' A1 A2 A3 HD).
  - destruct ls as [|n1 ls]; [discriminate|]. destruct (skip_nth _ _ _ N1) as [N2 N3]. pose proof N2 as N4. rewrite N2 in IH1.
    destruct (find_offers _ _ _ OF) as (st & lr & A1 & A2 & A3). assert (EI : nState n1 = i) by (cbn [map] in IH2; change (snd (pr n1) = i); replace (pr n1) with (m, i) by congruence; reflexivity). rewrite <- IH2 in M. destruct (dry_moves t r n1 ls l' M) as (cons & ls' & HD & HM & TD).
    destruct cons; [exfalso; apply TK, TD; reflexivity|]. exists ls'. split; [|split; [exact HM|lia]]. rewrite N4.
    eapply B_snoc; [exact IH1|]. rewrite <- EI in A1. apply (ST c n1 ls t (skipn (S k) ts) r st lr false ls' A1 A2 A3 HD).
Qed.
Lemma skip_all {A} (l : list A) k : (k <= length l)%nat -> (skipn k l = [] <-> k = length l).
Proof. intros H. split; intros X; [|subst; apply skipn_all]. assert (Y : length (skipn k l) = 0%nat) by (rewrite X; reflexivity). rewrite skipn_length in Y. lia. Qed.

(** types kept in nodes *)
Definition typed (n : nodeRec) : Prop := nState n = FinalState \/ exists st, zget (gStates g) (nState n) = Some st /\ nTypes n = sTypes st.
Lemma typed_pop (l : list nodeRec) : Forall typed l -> Forall typed (dryPop l) /\ forall n r, dryPop l = n :: r -> nState n <> FinalState.
Proof.
  induction 1 as [|n l H HF IH]; [split; [constructor|discriminate]|]. cbn [dryPop]. destruct (Z.eqb_spec (nState n) FinalState) as [X|X]; [exact IH|].
  split; [constructor; auto|]. intros m r EE. injection EE as <- _. exact X.
Qed.
Lemma typed_run s0 ts rs ls rem : Forall typed s0 -> (forall n r, s0 = n :: r -> nState n <> FinalState) -> brun s0 ts rs ls rem -> Forall typed ls /\ forall n r, ls = n :: r -> nState n <> FinalState.
Proof.
  intros H0 N0 B. induction B as [ts|ts rs ls rem r ls' rem' B [IH1 IH2] S]; [auto|].
  inversion S as [n1 ls1 t toks r1 st l cons ls2 A1 A2 A3 A4]; subst. clear S. rewrite dryRule_eq in A4.
  destruct (if rState r =? repeatState then Some n1 else _) as [n'|] eqn:EN; [|discriminate]. cbn [obind] in A4.
  assert (TN : typed n').
  { destruct (rState r =? repeatState); [injection EN as <-; exact (Forall_inv IH1)|]. destruct (Z.eqb_spec (rState r) FinalState) as [EF|EF]; [injection EN as <-; left; exact EF|].
    destruct (zget (gStates g) (rState r)) as [st2|] eqn:ES; [|discriminate]. injection EN as <-. right. exists st2. cbn. auto. }
  destruct (rNode r =? SameNode); cbn [obind] in A4.
  - match type of A4 with Some (_, ?d) = _ => remember d as dp eqn:EDP end. injection A4 as _ <-. rewrite EDP. apply typed_pop. constructor; [exact TN|exact (Forall_inv_tail IH1)].
  - destruct (zget (gNodes g) (rNode r)) as [d|] eqn:ED; [|discriminate]. cbn [obind] in A4. destruct (zget (gStates g) (gnFirst d)) as [st2|] eqn:ES; [|discriminate]. cbn [obind] in A4.
    match type of A4 with Some (_, ?d) = _ => remember d as dp eqn:EDP end. injection A4 as _ <-. rewrite EDP. apply typed_pop. constructor; [right; exists st2; cbn; auto|]. constructor; [exact TN|exact (Forall_inv_tail IH1)].
Qed.
End P.
