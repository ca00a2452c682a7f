(** Proofs: a string the machine with a stack accepts is accepted by the parser. *)
From Coq Require Import ZArith List Bool Lia Arith.
From Verif Require Import Base BaseProofs Grammar Rules RulesSpec Prop_Rules Parser ParserSpec ParserSafeSpec ParserFlowSpec ParserFuel ParserLook ParserWorld ParserEnd PredictSpec Predict PredictSim.
Import ListNotations.
Open Scope Z_scope.

Section P.
Context {Tok Src W E Inst R : Type}.
Variable c : config Tok Src W E Inst R.
Notation g := (cGrammar c).
Notation pstate := (pstate Tok Src W E Inst R).
Notation core := (core c).
Notation ruleOf := (ruleOf g).
Notation tokenMatches := (tokenMatches (cType c) (cText c) (cUpper c) g).
Notation acc := (acc c).
Notation chained := (chained c).
Notation known := (known c).
Variable lexed : Tok -> Prop.

Hypothesis GO : grammarOk c.
Hypothesis NE : noErrors c.
Hypothesis QH : quietHooks c.
Hypothesis NT : cTokenHooks c = [].
Hypothesis HT : forall table, In table (cNodeHooks c) -> zlen (gNodes g) < zlen table.
Hypothesis PR : predictive c lexed.
Hypothesis CR : coreRules c lexed.
Hypothesis TY : typesOk c lexed.
Variables (fair : Src -> Prop) (view : Src -> list Tok) (eoi : Tok).
Hypothesis WI : willing c lexed fair view eoi.

(** the parser is where the machine is, the source is free of errors *)
Definition sim (S : list (Z * Z)) (s : pstate) : Prop := PredictSim.sim c S s /\ fair (srcOf s).
Lemma same_sim S n j r t s : sim ((n, j) :: S) s -> ruleOf j r -> rNode r = SameNode ->
  exists s', applyRule c t r s = Done (negb (rToken r =? AnyToken) || match t with None => true | Some _ => false end) s' /\
    sim (settle ((n, rState r) :: S)) s' /\ srcOf s' = srcOf s.
Proof. intros (SI & F) RU RN. destruct (apply_same c GO NE QH _ _ _ _ t _ SI RU RN) as (s1 & AR & SI1 & SR). exists s1. unfold sim. rewrite SR. auto. Qed.
Lemma node_sim S n j r nt t s : sim ((n, j) :: S) s -> ruleOf j r -> rNode r <> SameNode -> zget (gNodes g) (rNode r) = Some nt ->
  exists s', applyRule c (Some t) r s = Done false s' /\ sim ((rNode r, gnFirst nt) :: (n, rState r) :: S) s' /\ srcOf s' = srcOf s.
Proof. intros (SI & F) RU RN GN. destruct (apply_node c GO NE QH HT _ _ _ _ _ t _ SI RU RN GN) as (s1 & AR & SI1 & SR). exists s1. unfold sim. rewrite SR. auto. Qed.
Lemma side_sim S n j t tt s : sim ((n, j) :: S) s -> j <> FinalState -> tt <> AnyToken ->
  exists s', applyRule c (Some t) (mkRule tt repeatState SameNode) s = Done true s' /\ sim ((n, j) :: S) s' /\ srcOf s' = srcOf s.
Proof. intros (SI & F) NF NA. destruct (apply_side c NE QH _ _ _ t _ _ SI NF NA) as (s1 & AR & SI1 & SR). exists s1. unfold sim. rewrite SR. auto. Qed.
Definition left (s : pstate) : list Tok := view (srcOf s).
Definition todo (s : pstate) : list Tok := filter core (left s).

Lemma eoi_type : cType c eoi = EoiTokenType.
Proof. apply (wi_source _ _ _ _ _ WI). Qed.
Lemma side_core t : sideToken c t = true -> core t = false.
Proof. intros H. unfold PredictSpec.core. rewrite H. reflexivity. Qed.
Lemma negative_side t : cType c t < 0 -> sideToken c t = false.
Proof. intros H. rewrite sideToken_ok. unfold isSideType. destruct (Z.leb_spec 0 (cType c t)); [lia|reflexivity]. Qed.
Lemma eoi_core t : cType c t = EoiTokenType -> core t = true.
Proof. intros H. unfold PredictSpec.core. rewrite negative_side by (rewrite H; reflexivity). rewrite H. reflexivity. Qed.

(** ** The next token *)
Definition steady (s s' : pstate) : Prop := pStack s' = pStack s /\ pTokens s' = pTokens s /\ pApplied s' = pApplied s.
Lemma steady_sim S s s' : steady s s' -> PredictSim.sim c S s -> PredictSim.sim c S s'.
Proof. intros (D & B & C) (X1 & X2 & X3 & X4 & X5). unfold PredictSim.sim, hooked in *. rewrite D, B, C. auto. Qed.
Lemma steady_trans a b d : steady a b -> steady b d -> steady a d.
Proof. unfold steady. intuition congruence. Qed.

Inductive next (types : Z) (s : pstate) : option Tok -> pstate -> Prop :=
| X_core x s' : core x = true -> lexed x -> todo s = x :: todo s' -> next types s (Some x) s'
| X_eoi s' : todo s = [] -> left s' = [] -> next types s (Some eoi) s'
| X_none s' : todo s' = todo s -> ~ wanted c types (cType c (hd eoi (left s'))) -> next types s None s'
| X_side x s' : sideToken c x = true -> lexed x -> cType c x <> EofTokenType -> cPassSides c = true -> todo s' = todo s -> (length (left s') < length (left s))%nat -> next types s (Some x) s'.

Lemma next_ok types : forall m s, (length (left s) <= m)%nat -> fair (srcOf s) -> exists f t s', nextLoop c f types s = Done t s' /\ fair (srcOf s') /\ steady s s' /\ next types s t s'.
Proof.
  induction m as [m IH] using lt_wf_ind. intros s L FA. destruct (wi_fair _ _ _ _ _ WI types (srcOf s) FA) as (src' & t & FE & FA').
  destruct (wi_source _ _ _ _ _ WI) as (ET & SO & SN).
  set (s1 := log (EvPass 0 t) (setWorld s (src', snd (pWorld s)))).
  assert (PT : forall fuel, pullToken c fuel types (cTokenHooks c) 0 s = Done t s1). { intros fuel. rewrite NT. cbn [pullToken]. change (fst (pWorld s)) with (srcOf s). rewrite FE. reflexivity. }
  assert (ST : steady s s1) by (repeat split). assert (LS : left s1 = view src') by reflexivity.
  destruct t as [x|].
  - destruct (SO _ _ _ _ FE) as [V|(V0 & -> & V1)].
    + assert (V' : left s = x :: left s1) by (rewrite LS; exact V). assert (KN : lexed x). { apply (wi_lexed _ _ _ _ _ WI (srcOf s) _ FA). fold (left s). rewrite V'. left. reflexivity. }
      destruct (core x) eqn:CO.
      * exists 1%nat, (Some x), s1. split; [|split; [exact FA'|split; [exact ST|]]].
        { cbn [nextLoop]. rewrite PT. cbn [bind]. rewrite <- sideToken_ok. unfold PredictSpec.core in CO. apply andb_true_iff in CO as (C1 & C2). rewrite C1, C2. reflexivity. }
        apply X_core; [exact CO|exact KN|]. unfold todo. rewrite V'. cbn [filter]. rewrite CO. reflexivity.
      * assert (TD : todo s1 = todo s). { unfold todo. rewrite V'. cbn [filter]. rewrite CO. reflexivity. }
        destruct (negb (cType c x =? EofTokenType) && (negb (isSideType g (cType c x)) || cPassSides c)) eqn:B.
        { exists 1%nat, (Some x), s1. split; [|split; [exact FA'|split; [exact ST|]]]. { cbn [nextLoop]. rewrite PT. cbn [bind]. rewrite B. reflexivity. }
          apply andb_true_iff in B as (B1 & B2). unfold PredictSpec.core in CO. rewrite B1, andb_true_r in CO. apply negb_false_iff in CO. rewrite <- sideToken_ok, CO in B2. cbn in B2.
          apply X_side; [exact CO|exact KN| |exact B2|exact TD|rewrite V'; cbn; lia]. apply negb_true_iff, Z.eqb_neq in B1. exact B1. }
        { assert (LL : (length (left s1) < length (left s))%nat) by (rewrite V'; cbn; lia).
          destruct (IH (length (left s1)) ltac:(lia) s1 ltac:(lia) FA') as (f & t & s' & NL & FA2 & ST' & NX). exists (Datatypes.S f), t, s'.
          split; [|split; [exact FA2|split; [exact (steady_trans _ _ _ ST ST')|]]]. { cbn [nextLoop]. rewrite PT. cbn [bind]. rewrite B. exact NL. }
          destruct NX as [x' s' CO' KN' TD'|s' TD' LE'|s' TD' NW'|x' s' SD' KN' EF' PS' TD' LL']; [apply X_core; [assumption|assumption|congruence]|apply X_eoi; [congruence|assumption]|apply X_none; [congruence|assumption]|apply X_side; try assumption; [congruence|lia]]. }
    + exists 1%nat, (Some eoi), s1. split; [|split; [exact FA'|split; [exact ST|]]].
      { cbn [nextLoop]. rewrite PT. cbn [bind]. rewrite <- sideToken_ok, negative_side by (rewrite ET; reflexivity). rewrite ET. reflexivity. }
      apply X_eoi; [|rewrite LS; exact V1]. unfold todo, left. rewrite V0. reflexivity.
  - exists 1%nat, None, s1. split; [cbn [nextLoop]; rewrite PT; reflexivity|]. split; [exact FA'|]. split; [exact ST|]. pose proof (SN _ _ _ FE) as V.
    apply X_none; [unfold todo; rewrite LS, V; reflexivity|]. rewrite LS, V. apply (wi_wanted _ _ _ _ _ WI _ _ _ FA FE).
Qed.

(** ** Simulation *)
Definition finishes (used : bool) (t : option Tok) (s : pstate) : Prop := exists f used' t' s', parseLoop c f used t s = Done (used', t') s' /\
  fair (srcOf s') /\ pTokens s' = [] /\ todo s' = [] /\ (used' = false -> exists x, t' = Some x /\ cType c x = EoiTokenType).

Lemma parse_more f f' used t s x s' : parseLoop c f used t s = Done x s' -> (f <= f')%nat -> parseLoop c f' used t s = Done x s'.
Proof. intros H L. destruct (le_parseLoop c f f' used t s L) as [(s0 & X)|X]; congruence. Qed.
Lemma next_more f f' types s x s' : nextLoop c f types s = Done x s' -> (f <= f')%nat -> nextLoop c f' types s = Done x s'.
Proof. intros H L. destruct (le_nextLoop c types f f' s L) as [(s0 & X)|X]; congruence. Qed.

Lemma sim_top S n j s : sim ((n, j) :: S) s -> exists nr ns, pStack s = nr :: ns /\ nIndex nr = n /\ nState nr = j.
Proof.
  intros ((SH & _) & _). destruct (pStack s) as [|nr ns]; [discriminate|]. cbn in SH. injection SH as A B C. eauto.
Qed.
Lemma step_rule S n j st t s r used s1 : sim ((n, j) :: S) s -> zget (gStates g) j = Some st -> findRules (cType c) (cText c) (cUpper c) g t st = Some [r] ->
  applyRule c t r s = Done used s1 -> finishes used t s1 -> finishes false t s.
Proof.
  intros SI G FR AR (f & u' & t' & s' & P & Q). destruct (sim_top _ _ _ _ SI) as (nr & ns & ST & SN & SJ). destruct SI as ((_ & _ & _ & _ & PA) & _).
  exists (Datatypes.S f), u', t', s'. split; [|exact Q]. cbn [parseLoop]. rewrite ST, SJ, G. unfold nextRule. rewrite PA, FR. cbn [bind]. rewrite AR. exact P.
Qed.
Lemma step_next S n j st t s : sim ((n, j) :: S) s -> j <> FinalState -> zget (gStates g) j = Some st ->
  (forall t' s', sim ((n, j) :: S) s' -> next (sTypes st) s t' s' -> finishes false t' s') -> finishes true t s.
Proof.
  intros SI NF G H. destruct (checkCtx_calm c NE QH s) as (s1 & CC & CM).
  pose proof (calm_sim c _ _ _ CM (proj1 SI)) as SI1.
  assert (TD : left s1 = left s). { unfold left. destruct CM as (-> & _). reflexivity. }
  destruct (next_ok (sTypes st) (length (left s1)) s1 (Nat.le_refl _)) as (f1 & t2 & s2 & NL & FA2 & STE & NX); [destruct CM as (-> & _); apply SI|].
  assert (NX' : next (sTypes st) s t2 (log (EvNext t2) s2)).
  { destruct NX; [apply X_core|apply X_eoi|apply X_none|apply X_side]; try assumption; unfold todo in *; rewrite <- ?TD; assumption. }
  assert (SI2 : sim ((n, j) :: S) (log (EvNext t2) s2)). { split; [|exact FA2]. eapply steady_sim; [|exact SI1]. exact STE. }
  destruct (H t2 _ SI2 NX') as (f2 & u' & t' & s' & P & Q).
  exists (Datatypes.S (Nat.max f1 f2)), u', t', s'. split; [|exact Q]. cbn [parseLoop].
  destruct (sim_top _ _ _ _ SI) as (nr & ns & ST & SN & SJ). rewrite ST, CC. cbn [bind]. unfold nextToken.
  destruct SI1 as (_ & _ & _ & PT & _). rewrite PT.
  assert (TYP : nTypes nr = sTypes st). { destruct SI as ((_ & T & _) & _). rewrite ST in T. cbn in T. inversion T as [|? ? T1 _]; subst. cbn in T1. destruct (T1 NF) as (st' & G' & ->). congruence. }
  rewrite TYP, (next_more _ (Nat.max f1 f2) _ _ _ _ NL) by lia. cbn [bind]. apply (parse_more f2); [exact P|lia].
Qed.

(** the current token *)
Definition feeds (u : list Tok) (t : Tok) (s : pstate) : Prop :=
  (exists u', u = t :: u' /\ core t = true /\ lexed t /\ todo s = u') \/ (u = [] /\ t = eoi /\ todo s = []).
Lemma feeds_ok u t s : feeds u t s -> core t = true /\ lexed t /\ nextOf c u t.
Proof.
  intros [(u' & -> & A & B & _)|(-> & -> & _)]; [split; [exact A|split; [exact B|reflexivity]]|]. split; [apply eoi_core, eoi_type|]. split; [apply (wi_eoi _ _ _ _ _ WI)|apply eoi_type].
Qed.
Lemma feeds_src u t s s' : srcOf s' = srcOf s -> feeds u t s -> feeds u t s'.
Proof. intros X. unfold feeds, todo, left. rewrite X. auto. Qed.

(** taking the next token, given what happens then *)
Lemma take S n j st u : j <> FinalState -> zget (gStates g) j = Some st ->
  (forall s t, sim ((n, j) :: S) s -> feeds u t s -> finishes false (Some t) s) ->
  (forall s, sim ((n, j) :: S) s -> todo s = u -> ~ wanted c (sTypes st) (cType c (hd eoi (left s))) -> finishes false None s) ->
  forall m s t, (length (left s) <= m)%nat -> sim ((n, j) :: S) s -> todo s = u -> finishes true t s.
Proof.
  intros NF G HB HN. induction m as [m IH] using lt_wf_ind. intros s t L SI TD.
  eapply step_next; [exact SI|exact NF|exact G|]. intros t' s' SI' NX. inversion NX as [x s2 CO KN TD' E1 E2|s2 TD' LE E1 E2|s2 TD' NW E1 E2|x s2 SD KN NEF PS TD' LL E1 E2]; subst t' s2.
  - apply HB; [exact SI'|]. left. exists (todo s'). split; [congruence|auto].
  - apply HB; [exact SI'|]. right. split; [congruence|]. split; [reflexivity|]. unfold todo. rewrite LE. reflexivity.
  - apply HN; [exact SI'|congruence|exact NW].
  - assert (IS : isSide (cType c) g (Some x)). { exists x. split; [reflexivity|]. apply isSideType_spec. rewrite <- sideToken_ok. exact SD. }
    assert (NA : cType c x <> AnyToken). { unfold AnyToken. destruct (wi_known _ _ _ _ _ WI _ KN) as [(X & _)|[X|X]]; [lia|rewrite X; discriminate|rewrite X; discriminate]. }
    destruct (side_sim _ _ _ x _ _ SI' NF NA) as (s3 & AR & SI3 & SR).
    eapply step_rule; [exact SI'|exact G|apply side_token_rule, IS|exact AR|].
    assert (LE : left s3 = left s') by (unfold left; rewrite SR; reflexivity).
    apply (IH (length (left s3))); [rewrite LE; lia|lia|exact SI3|]. unfold todo. rewrite LE. fold (todo s'). congruence.
Qed.

Lemma sim_nil s used t u : sim [] s -> (used = true -> todo s = u) -> (used = false -> exists x, t = Some x /\ feeds u x s) -> u = [] -> finishes used t s.
Proof.
  intros ((SH & _ & _ & PT & _) & FA) A B ->. destruct (pStack s) as [|nr ns] eqn:ST; [|discriminate]. exists 1%nat, used, t, s. split; [cbn [parseLoop]; rewrite ST; reflexivity|]. split; [exact FA|]. split; [exact PT|].
  destruct used.
  - split; [auto|discriminate].
  - destruct (B eq_refl) as (x & -> & [(u' & X & _)|(_ & X & Y)]); [discriminate|]. subst x. split; [exact Y|exists eoi; split; [reflexivity|apply eoi_type]].
Qed.

Lemma ruleOf_state j r : ruleOf j r -> exists st, zget (gStates g) j = Some st /\ j <> FinalState.
Proof. intros (st & rules & multi & rs & G & _). exists st. split; [exact G|]. intros ->. discriminate. Qed.
(** the next token of accepted input is wanted *)
Lemma wanted_next j st r t u s : zget (gStates g) j = Some st -> ruleOf j r -> reads r -> tokenMatches t (rToken r) -> todo s = t :: u -> fair (srcOf s) ->
  wanted c (sTypes st) (cType c (hd eoi (left s))).
Proof.
  intros G RU RD TM TD FA. unfold todo in TD.
  assert (LT : lexed t). { apply (wi_lexed _ _ _ _ _ WI (srcOf s) _ FA). fold (left s). assert (I : In t (filter core (left s))) by (rewrite TD; left; reflexivity). apply filter_In in I. apply I. }
  destruct (TY j st r t G RU RD LT TM) as (T1 & T2).
  destruct (left s) as [|x l] eqn:EL; [discriminate|]. cbn [hd]. cbn [filter] in TD.
  assert (LX : lexed x) by (apply (wi_lexed _ _ _ _ _ WI (srcOf s) _ FA); fold (left s); rewrite EL; left; reflexivity).
  destruct (core x) eqn:CO; [injection TD as -> _; exact T1|apply T2; assumption].
Qed.

Lemma simulation S u : acc S u -> chained S -> (forall s t, sim S s -> feeds u t s -> finishes false (Some t) s) /\ (forall s t, sim S s -> todo s = u -> finishes true t s).
Proof.
  assert (TO : tablesOk g) by apply (go_tables _ GO).
  induction 1 as [|n j S r x u RU RD RN TM A IH|n j S r u RU RA RN A IH|n j S r nt x u RU RD RN TM GN A IH]; intros CH.
  - split; intros s t SI H; apply (sim_nil s _ _ [] SI); try discriminate; try reflexivity; intros _; [exists t; auto|exact H].
  - destruct (ruleOf_state j r RU) as (st & G & NF). pose proof (chained_settle c _ (chained_step c _ _ _ _ CH RU)) as CH'. destruct (IH CH') as (IHB & IHA).
    assert (B : forall s t, sim ((n, j) :: S) s -> feeds (x :: u) t s -> finishes false (Some t) s).
    { intros s t SI FE. destruct FE as [(u' & X & CO & KN & TD)|(X & _)]; [|discriminate]. injection X as -> ->.
      destruct (same_sim _ _ _ _ (Some t) _ SI RU RN) as (s1 & AR & SI1 & SR).
      eapply step_rule; [exact SI|exact G|exact (choose_rule c lexed (wi_known _ _ _ _ _ WI) PR TO _ _ _ _ G KN CO RU RD TM)|exact AR|].
      unfold reads in RD. apply Z.eqb_neq in RD. rewrite RD. cbn [negb orb]. apply IHA; [exact SI1|]. unfold todo, left. rewrite SR. exact TD. }
    split; [exact B|]. intros s t SI TD. eapply (take S n j st (x :: u) NF G B); [|apply Nat.le_refl|exact SI|exact TD].
    intros s' SI' TD' NW. destruct NW. eapply wanted_next; try eassumption. apply SI'.
  - destruct (ruleOf_state j r RU) as (st & G & NF). pose proof (chained_step c _ _ _ _ CH RU) as CH1. pose proof (chained_settle c _ CH1) as CH'. destruct (IH CH') as (IHB & IHA).
    assert (B : forall s t, sim ((n, j) :: S) s -> feeds u t s -> finishes false (Some t) s).
    { intros s t SI FE. destruct (feeds_ok _ _ _ FE) as (CO & KN & NX).
      pose proof (follow_settle c _ t CH1 (acc_next c _ _ A CH' t NX)) as CN. cbn in CN.
      destruct (same_sim _ _ _ _ (Some t) _ SI RU RN) as (s1 & AR & SI1 & SR).
      eapply step_rule; [exact SI|exact G|apply (choose_skip c lexed (wi_known _ _ _ _ _ WI) PR TO _ _ _ _ G KN CO RU RA)|exact AR|].
      - intros r' RU' RD' TM'. exact (pr_skip _ _ PR n j r r' t (chained_of c _ _ _ CH) RU RA RU' RD' KN TM' CN).
      - rewrite RA, Z.eqb_refl. cbn [negb orb]. apply IHB; [exact SI1|]. eapply feeds_src; eassumption. }
    split; [exact B|]. intros s t SI TD. eapply (take S n j st u NF G B); [|apply Nat.le_refl|exact SI|exact TD].
    intros s' SI' TD' NW. destruct (same_sim _ _ _ _ None _ SI' RU RN) as (s1 & AR & SI1 & SR).
    eapply step_rule; [exact SI'|exact G|exact (choose_none c lexed PR TO _ _ _ G RU RA)|exact AR|]. rewrite orb_true_r. apply IHA; [exact SI1|]. unfold todo, left. rewrite SR. exact TD'.
  - destruct (ruleOf_state j r RU) as (st & G & NF). pose proof (chained_push c _ _ _ _ _ CH RU GN) as CH'. destruct (IH CH') as (IHB & IHA).
    assert (B : forall s t, sim ((n, j) :: S) s -> feeds (x :: u) t s -> finishes false (Some t) s).
    { intros s t SI FE. destruct (feeds_ok _ _ _ FE) as (CO & KN & NX). cbn in NX. subst t.
      destruct (node_sim _ _ _ _ _ x _ SI RU RN GN) as (s1 & AR & SI1 & SR).
      eapply step_rule; [exact SI|exact G|exact (choose_rule c lexed (wi_known _ _ _ _ _ WI) PR TO _ _ _ _ G KN CO RU RD TM)|exact AR|].
      apply IHB; [exact SI1|]. eapply feeds_src; eassumption. }
    split; [exact B|]. intros s t SI TD. eapply (take S n j st (x :: u) NF G B); [|apply Nat.le_refl|exact SI|exact TD].
    intros s' SI' TD' NW. destruct NW. eapply wanted_next; try eassumption. apply SI'.
Qed.

(** ** After the root node *)
Lemma all_wanted t : known t -> wanted c AllTokenTypes (cType c t).
Proof.
  intros [(X & _)|[X|X]]; unfold wanted.
  - destruct (Z.ltb_spec (cType c t) 0); [lia|]. change AllTokenTypes with (Z.ones 64). apply Z.ones_spec_low. exact X.
  - rewrite X. apply (wi_some _ _ _ _ _ WI).
  - rewrite X. apply (wi_some _ _ _ _ _ WI).
Qed.
Lemma rest_more f f' s x s' : restLoop c f s = Done x s' -> (f <= f')%nat -> restLoop c f' s = Done x s'.
Proof. intros H L. destruct (le_restLoop c f f' s L) as [(s0 & X)|X]; congruence. Qed.
Lemma rest_ok : forall m s, (length (left s) <= m)%nat -> fair (srcOf s) -> pTokens s = [] -> todo s = [] -> exists f s', restLoop c f s = Done tt s'.
Proof.
  induction m as [m IH] using lt_wf_ind. intros s L FA PT TD. destruct (next_ok AllTokenTypes (length (left s)) s (Nat.le_refl _) FA) as (f & t & s1 & NL & FA1 & (ST & PT1 & PA) & NX).
  inversion NX as [x s2 CO KN TD' E1 E2|s2 TD' LE E1 E2|s2 TD' NW E1 E2|x s2 SD KN NEF PS TD' LL E1 E2]; subst t s2.
  - congruence.
  - exists (Datatypes.S f). eexists. cbn [restLoop]. unfold nextToken. rewrite PT, NL. cbn [bind]. rewrite eoi_type. reflexivity.
  - destruct NW. apply all_wanted. destruct (left s1) as [|x l] eqn:LE; cbn [hd]; [right; right; apply eoi_type|]. apply (wi_known _ _ _ _ _ WI), (wi_lexed _ _ _ _ _ WI (srcOf s1) _ FA1). fold (left s1). rewrite LE. left. reflexivity.
  - destruct (IH (length (left s1)) ltac:(lia) (log (EvRest x) s1)) as (f2 & s' & RL); [apply Nat.le_refl|exact FA1|cbn; congruence|change (todo (log (EvRest x) s1)) with (todo s1); congruence|].
    exists (Datatypes.S (Nat.max f f2)), s'. cbn [restLoop]. unfold nextToken. rewrite PT, (next_more _ (Nat.max f f2) _ _ _ _ NL) by lia. cbn [bind].
    destruct (Z.eqb_spec (cType c x) EoiTokenType) as [X|X]; [apply eoi_core in X; rewrite (side_core _ SD) in X; discriminate|].
    rewrite <- sideToken_ok, SD. apply (rest_more f2); [exact RL|lia].
Qed.

Lemma start_ok w t0 nt : zget (gNodes g) RootNode = Some nt -> fair (fst w) -> exists s, start c w t0 = Done tt s /\ sim [(RootNode, gnFirst nt)] s /\ srcOf s = fst w.
Proof.
  intros G FA. unfold start. destruct (pushNode_soft c GO NE QH HT RootNode nt (Some t0) (mkP w [] (repeat [] (length (cTokenHooks c))) [] None [] [] false) G ltac:(constructor)) as (s & st & -> & GS & P1 & P2 & P3 & P4 & P5).
  exists s. split; [reflexivity|]. split; [|exact P1]. split; [|rewrite P1; exact FA]. cbn in P4. split; [rewrite P4; reflexivity|]. split; [rewrite P4; constructor; [|constructor]; cbn; intros _; eauto|]. auto.
Qed.
Theorem accepted nt w t0 : zget (gNodes g) RootNode = Some nt -> fair (fst w) -> acc [(RootNode, gnFirst nt)] (filter core (view (fst w))) ->
  exists f r s, parseFrom c f w t0 = Done r s.
Proof.
  intros G FA A. destruct (start_ok w t0 nt G FA) as (s & ST & SI & SR).
  assert (CH : chained [(RootNode, gnFirst nt)]). { apply CH_root, ON_first, G. }
  destruct (proj2 (simulation _ _ A CH) s None SI) as (f & used & t & s1 & P & FA1 & PT & TD & EO); [unfold todo, left; rewrite SR; reflexivity|].
  destruct (rest_ok (length (left s1)) s1 (Nat.le_refl _) FA1 PT TD) as (f2 & s2 & RL).
  unfold parseFrom. rewrite ST. cbn [bind]. unfold parse.
  exists (Nat.max f f2). rewrite (parse_more _ (Nat.max f f2) _ _ _ _ _ P) by lia. cbn [bind].
  destruct used.
  - destruct (cFullSource c && _); [rewrite (rest_more _ (Nat.max f f2) _ _ _ RL) by lia|]; eexists _, _; reflexivity.
  - destruct (EO eq_refl) as (x & -> & TX). rewrite TX, Z.eqb_refl. rewrite andb_false_r. eexists _, _; reflexivity.
Qed.
End P.
