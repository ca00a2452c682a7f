(** A parse comes to an end. *)
From Coq Require Import ZArith List Bool Lia Arith.
From Verif Require Import Base BaseProofs Grammar Rules RulesSpec Parser ParserSpec ParserProofs ParserInv ParserStream ParserLook ParserErr ParserMain ParserWorld ParserTermSpec ParserIdle ParserFuel ParserTermLook.
Import ListNotations.
Open Scope Z_scope.

Section P.
Context {Tok Src W E Inst R : Type}.
Variable c : config Tok Src W E Inst R.
Notation g := (cGrammar c).
Notation pstate := (pstate Tok Src W E Inst R).
Notation event := (event Tok E Inst R).
Notation res := (res Tok Src W E Inst R).
Notation clog := (clog (Tok:=Tok) (Src:=Src) (W:=W) (E:=E) (Inst:=Inst) (R:=R)).
Notation nodeRec := (nodeRec Tok Inst).
Notation findRules := (findRules (cType c) (cText c) (cUpper c) g).
Hypothesis TO : tablesOk g.
Hypothesis NL : noIdleLoop g.
Variable size : Src -> nat.
Hypothesis FS : finiteSource c size.
Hypothesis AN : addsNothing c size.
Hypothesis N0 : cTokenHooks c = [].
Notation real := (real c).
Notation left := (left c size).

(** Node hooks leave the source as it is. *)
Lemma hist_size x y : hist c x y -> exists l, snd y = l ++ snd x /\ (forallb isNodeEvent l = true -> (size (fst (fst y)) <= size (fst (fst x)))%nat).
Proof.
  induction 1 as [x|x y z HH (l & IH1 & IH2) HP]; [exists []; split; auto|].
  assert (SAME : forall ev, snd z = ev :: snd y -> (isNodeEvent ev = true -> (size (fst (fst z)) <= size (fst (fst y)))%nat) ->
     exists l, snd z = l ++ snd x /\ (forallb isNodeEvent l = true -> (size (fst (fst z)) <= size (fst (fst x)))%nat)).
  { intros ev E1 E2. exists (ev :: l). rewrite E1, IH1. split; auto. cbn [forallb]. intros H. apply andb_true_iff in H as [H1 H2]. specialize (E2 H1). specialize (IH2 H2). lia. }
  destruct AN. inversion HP; subst; clear HP; cbn [fst snd] in *; (eapply SAME; [reflexivity|]); cbn [isNodeEvent fst]; try discriminate; intros _; auto.
  - specialize (an_newNode i node t w). rewrite H0 in an_newNode. auto.
  - specialize (an_token i t w). rewrite H in an_token. auto.
  - specialize (an_node i node x0 w). rewrite H in an_node. auto.
  - specialize (an_end i w). rewrite H in an_end. auto.
  - specialize (an_create table h node t w (nth_error_In _ _ H) H0). rewrite H1 in an_create. auto.
Qed.

(** ** No loops outside the main one *)
Definition nf {A} (m : res A) : Prop := forall s, m <> NoFuel s.
Lemma nf_done {A} (a : A) (s : pstate) : nf (Done a s). Proof. intros s'. discriminate. Qed.
Lemma nf_panic {A} : nf (Panic : res A). Proof. intros s'. discriminate. Qed.
Lemma nf_nret e (s : pstate) : nf (nret e s). Proof. destruct e; intros s'; discriminate. Qed.
Lemma nf_bind {A B} (m : res A) (k : A -> pstate -> res B) : nf m -> (forall a s, nf (k a s)) -> nf (bind m k).
Proof. intros H1 H2. destruct m; cbn [bind]; auto; intros s'; try discriminate. intros X. exact (H1 s eq_refl). Qed.
Lemma nf_newNodes : forall hooks layer node t s, nf (newNodes c layer hooks node t s).
Proof. induction hooks as [|[i|] r IH]; intros; cbn [newNodes]; [apply nf_done| |auto]. destruct (mNewNode _ _ _ _ _). apply nf_bind; [apply nf_nret|auto]. Qed.
Lemma nf_handleTokens : forall hooks layer t s, nf (handleTokens c layer hooks t s).
Proof. induction hooks as [|[i|] r IH]; intros; cbn [handleTokens]; [apply nf_done| |auto]. destruct (mHandleToken _ _ _ _). apply nf_bind; [apply nf_nret|auto]. Qed.
Lemma nf_endNodes : forall hooks layer s, nf (endNodes c layer hooks s).
Proof.
  induction hooks as [|[i|] r IH]; intros; cbn [endNodes]; [apply nf_done| |].
  - destruct (mEndNode _ _ _) as [w [x e]]. apply nf_bind; [apply nf_nret|]. intros. apply nf_bind; auto. intros. apply nf_done.
  - apply nf_bind; auto. intros. apply nf_done.
Qed.
Lemma nf_handleNodes : forall hooks layer node results s, nf (handleNodes c layer hooks node results s).
Proof. induction hooks as [|[i|] r IH]; intros layer node results s; cbn [handleNodes]; [apply nf_done| |auto]. destruct results; [apply nf_panic|]. destruct (mHandleNode _ _ _ _ _). apply nf_bind; [apply nf_nret|auto]. Qed.
Lemma nf_newHooks : forall tables layer node t (s : pstate), nf (newHooks layer tables node t s).
Proof.
  induction tables as [|table r IH]; intros; cbn [newHooks]; [apply nf_done|]. apply nf_bind.
  - unfold getNodeHook. destruct (zget table (node + 1)) as [h|]; [|apply nf_panic]. destruct (zget table 0) as [any|]; [|apply nf_panic].
    destruct (match h with Some _ => h | None => any end) as [h'|]; [|apply nf_done]. destruct (h' _ _ _) as [w [i e]]. apply nf_bind; [apply nf_nret|intros; apply nf_done].
  - intros. apply nf_bind; auto. intros. apply nf_done.
Qed.
Lemma nf_handleTokenList hooks : forall ts s, nf (handleTokenList c hooks ts s).
Proof. induction ts; intros; cbn [handleTokenList]; [apply nf_done|]. apply nf_bind; [apply nf_handleTokens|auto]. Qed.
Lemma nf_handleNodeSides s : nf (handleNodeSides c s).
Proof. unfold handleNodeSides. destruct (pStack s); [apply nf_done|]. apply nf_bind; [apply nf_handleTokenList|intros; apply nf_done]. Qed.
Lemma nf_pushNode node t s : nf (pushNode c node t s).
Proof.
  unfold pushNode. apply nf_bind; [apply nf_handleNodeSides|]. intros _ s1. destruct (zget (gNodes g) node); [|apply nf_panic].
  apply nf_bind; [destruct (pStack s1); [apply nf_done|apply nf_newNodes]|]. intros _ s2. apply nf_bind; [apply nf_newHooks|]. intros. destruct (zget _ _); [apply nf_done|apply nf_panic].
Qed.
Lemma nf_popLoop : forall stack sides s, nf (popLoop c stack sides s).
Proof.
  induction stack as [|n rest IH]; intros sides s; cbn [popLoop]; [apply nf_done|]. destruct (negb _); [apply nf_done|].
  apply nf_bind; [destruct rest; [apply nf_handleTokenList|apply nf_done]|]. intros _ s1. apply nf_bind; [apply nf_endNodes|]. intros results s2.
  destruct rest; [apply nf_done|]. apply nf_bind; [apply nf_handleNodes|auto].
Qed.
Lemma nf_applyRule t r s : nf (applyRule c t r s).
Proof.
  unfold applyRule. destruct (pStack s) as [|n st]; [apply nf_panic|]. destruct (if rState r =? repeatState then _ else _) as [n'|]; [|apply nf_panic].
  apply nf_bind; [|intros _ s1; apply nf_bind; [|intros; apply nf_done]].
  - destruct (negb _); [apply nf_pushNode|]. destruct (_ || _); [|apply nf_done]. unfold handleNodeToken. destruct t as [t|]; [|apply nf_done].
    destruct (pStack (setTop s n')); [apply nf_panic|]. destruct (isSideToken _ _ _); [apply nf_done|]. apply nf_bind; [apply nf_handleNodeSides|]. intros; apply nf_handleTokens.
  - destruct (pStack s1) eqn:ES; [apply nf_panic|]. destruct (_ =? _); [|apply nf_done]. unfold popNode. rewrite ES. apply nf_popLoop.
Qed.
Lemma nf_checkCtx s : nf (checkCtx c s).
Proof. unfold checkCtx. destruct (cCtx c (pWorld s)) as [w [e|]]; intros s'; discriminate. Qed.

(** ** Once a branch is lost *)
Definition keepsLost {A} (s : pstate) (m : res A) : Prop := match m with Done _ s' | NoFuel s' => pLost s = true -> pLost s' = true | _ => True end.
Lemma nextToken_lost f types s : match nextToken c f types s with Done _ s' | Fail _ s' | NoFuel s' => pLost s' = pLost s | Panic => True end.
Proof.
  unfold nextToken. destruct (pTokens s); auto. revert s. induction f as [|f IH]; intros s; cbn [nextLoop]; auto. rewrite N0. cbn [pullToken].
  destruct (fetchToken c types (fst (pWorld s))) as [src [t e]]. destruct e as [e|]; cbn [ret bind]; auto. destruct (_ && _); auto.
  match goal with |- context [nextLoop c f types ?s1] => specialize (IH s1); destruct (nextLoop c f types s1) end; auto.
Qed.
Lemma lookLoop_lost : forall f t tokens k s, keepsLost s (lookLoop c f t tokens k s).
Proof.
  induction f as [|f IH]; intros t tokens k s; cbn [lookLoop]; [cbn; auto|].
  destruct (lookRound c (S f) t 0 _ _ _) as [[[k1 lost]|]|] eqn:ER; cbn; auto.
  assert (LO : pLost s = true -> lost = true) by (intros X; eapply lookRound_lost; eauto).
  assert (FIN : forall s2 : pstate, pLost s2 = lost -> keepsLost s (match match kNext k1 with b :: _ => Some b | [] => match kSuccess k1 with Some b => Some b | None => kError k1 end end with
            | None => Panic | Some b => match nth_error (kStore k1) b with Some br => Done (tokens ++ [t], bRules br) s2 | None => Panic end end)).
  { intros s2 HL. destruct (match kNext k1 with b :: _ => Some b | [] => _ end); cbn; auto. destruct (nth_error _ _); cbn; auto. intros X. rewrite HL. auto. }
  destruct (_ <=? _)%nat; [apply FIN; auto|]. destruct (_ =? 0); [apply FIN; auto|].
  pose proof (nextToken_lost (S f) (lookTypes (kStore k1) (kNext k1)) (setLost s lost)) as LF.
  destruct (nextToken c (S f) _ _) as [t2 s2|e s2| |s2]; [|apply FIN; exact LF|exact Logic.I|].
  - specialize (IH t2 (tokens ++ [t]) k1 s2). destruct (lookLoop c f t2 (tokens ++ [t]) k1 s2); cbn in *; auto; intros X; apply IH; rewrite LF; auto.
  - intros X. rewrite LF. apply LO. auto.
Qed.
Lemma nextRule_lost f t st s : keepsLost s (nextRule c f t st s).
Proof.
  unfold nextRule. destruct (pApplied s); [|cbn; auto]. destruct (findRules t st) as [[|r [|r' rs]]|]; cbn; auto.
  unfold resolveConflict. destruct (pStack s); cbn; auto.
  match goal with |- context [lookLoop c f t ?a ?b s] => pose proof (lookLoop_lost f t a b s) as H; destruct (lookLoop c f t a b s) as [[tokens rules] s1|e s1| |s1] end; cbn in *; auto.
  destruct rules; cbn; auto.
Qed.
Definition lostAll {A} (m : res A) : Prop := match m with Done _ s' | NoFuel s' => pLost s' = true | _ => True end.
Lemma parseLoop_lost t0 : forall f used t s, MI c t0 used t s -> pLost s = true -> lostAll (parseLoop c f used t s).
Proof.
  induction f as [|f IH]; intros used t s M PL; cbn [parseLoop]; [exact PL|].
  destruct (pStack s) as [|n ns] eqn:EN; [exact PL|]. destruct used.
  - pose proof (checkCtx_ok c s) as HC. pose proof (nf_checkCtx s) as NC. destruct (checkCtx c s) as [u s1|e s1| |s1] eqn:EC; cbn [bind]; try exact Logic.I; [|destruct (NC s1 eq_refl)].
    cbn [post] in HC. destruct HC as [HC _]. pose proof (str_lost _ _ _ HC) as L1.
    pose proof (nextToken_lost f (nTypes n) s1) as L2. destruct (nextToken c f (nTypes n) s1) as [t2 s2|e s2| |s2] eqn:ET; cbn [bind]; try exact Logic.I.
    + eapply IH; [eapply MI_next; eauto|]. cbn. congruence.
    + cbn. congruence.
  - destruct (zget (gStates g) (nState n)) as [st|] eqn:ES; [|exact Logic.I].
    pose proof (nextRule_lost f t st s) as L1. destruct (nextRule c f t st s) as [[r|] s1|e s1| |s1] eqn:ER; cbn [bind keepsLost] in *; try exact Logic.I.
    + pose proof (nf_applyRule t r s1) as NA. destruct (applyRule c t r s1) as [cons s2|e s2| |s2] eqn:EA; cbn [bind]; try exact Logic.I; [|destruct (NA s2 eq_refl)].
      destruct (MI_rule c t0 t s n ns st f r s1 cons s2 M EN ES ER EA) as (M2 & NS & _). eapply IH; [exact M2|]. rewrite (ns_lost _ _ NS). auto.
    + unfold syntaxError. destruct t as [t|].
      * destruct (getExpectedToken c st); exact Logic.I.
      * pose proof (nextToken_lost f AllTokenTypes s1) as L2. destruct (nextToken c f AllTokenTypes s1) as [t2 s2|e s2| |s2] eqn:ET; cbn [bind]; try exact Logic.I.
        -- destruct (getExpectedToken c st); [|exact Logic.I]. destruct t2; exact Logic.I.
        -- cbn. rewrite L2. auto.
    + cbn. auto.
Qed.

(** the tokens looked at start with the current one *)
Lemma lookLoop_tokens : forall f t tokens k s, match lookLoop c f t tokens k s with Done x _ => exists ts, fst x = tokens ++ t :: ts | _ => True end.
Proof.
  induction f as [|f IH]; intros t tokens k s; cbn [lookLoop]; auto.
  destruct (lookRound c (S f) t 0 _ _ _) as [[[k1 lost]|]|]; auto.
  assert (FIN : forall s2 : pstate, match match match kNext k1 with b :: _ => Some b | [] => match kSuccess k1 with Some b => Some b | None => kError k1 end end with
            | None => Panic | Some b => match nth_error (kStore k1) b with Some br => Done (tokens ++ [t], bRules br) s2 | None => Panic end end with Done x _ => exists ts, fst x = tokens ++ t :: ts | _ => True end).
  { intros s2. destruct (match kNext k1 with b :: _ => Some b | [] => _ end); auto. destruct (nth_error _ _); auto. exists []. auto. }
  destruct (_ <=? _)%nat; [apply FIN|]. destruct (_ =? 0); [apply FIN|].
  destruct (nextToken c (S f) _ _) as [t2 s2|e s2| |s2]; auto.
  2: apply FIN.
  specialize (IH t2 (tokens ++ [t]) k1 s2). destruct (lookLoop c f t2 (tokens ++ [t]) k1 s2); auto. destruct IH as (ts & ->). exists (t2 :: ts). rewrite <- app_assoc. auto.
Qed.
Lemma lookLoop_first f t k s tokens rules s' : lookLoop c f t [] k s = Done (tokens, rules) s' -> exists ts, tokens = t :: ts.
Proof. intros H. pose proof (lookLoop_tokens f t [] k s) as X. rewrite H in X. exact X. Qed.

(** ** What is left *)
Lemma applyRule_left t r s s' cons : applyRule c t r s = Done cons s' -> nodeStep s s' -> (left s' <= left s)%nat.
Proof.
  intros EA NS. pose proof (hs_applyRule c t r s) as H. rewrite EA in H. cbn [hs] in H. apply hist_size in H as (l & H1 & H2). unfold at_ in *. cbn [fst snd] in *.
  unfold ParserTermLook.left. rewrite (ns_tokens _ _ NS). destruct (ns_log _ _ NS) as (m & M1 & M2). unfold ParserProofs.clog in M2.
  rewrite H1, rev_app_distr in M2. apply app_inv_head in M2. assert (X : forallb isNodeEvent l = true); [|specialize (H2 X); lia].
  rewrite <- (rev_involutive l), M2. unfold allN in M1. rewrite forallb_forall in M1 |- *. intros x HX. apply M1. apply in_rev. auto.
Qed.
Lemma checkCtx_left s u s' : checkCtx c s = Done u s' -> (left s' <= left s)%nat.
Proof.
  unfold checkCtx. pose proof (an_ctx _ _ AN (pWorld s)) as H. destruct (cCtx c (pWorld s)) as [w [e|]]; [discriminate|]. cbn [ret]. intros X. injection X as _ <-.
  unfold ParserTermLook.left. cbn [pWorld setWorld pTokens log fst] in *. lia.
Qed.
Lemma nextRule_halts t st s : exists N, forall f, (N <= f)%nat -> forall s', nextRule c f t st s <> NoFuel s'.
Proof.
  unfold nextRule. destruct (pApplied s); [|exists O; discriminate]. destruct (findRules t st) as [[|r [|r' rs]]|]; try (exists O; discriminate).
  unfold resolveConflict. destruct (pStack s) as [|n ns]; [exists O; discriminate|].
  destruct (lookLoop_halts c TO NL size FS N0 (left s) t [] (mkLook [mkBranch [mkNodeRec [] [] (nTypes n) (nIndex n) (nState n)] []] [0%nat] [] None None) s (Nat.le_refl _)) as (N & HN).
  exists N. intros f HF s'. specialize (HN f HF). destruct (lookLoop c f t _ _ s) as [[tokens rules] s1|e s1| |s1]; cbn [bind]; try discriminate.
  - destruct rules; discriminate.
  - intros X. injection X as ->. exact (HN s' eq_refl).
Qed.
Lemma nextRule_left f t st s r s' : nextRule c f t st s = Done r s' -> (left s' <= left s)%nat.
Proof.
  unfold nextRule. destruct (pApplied s) as [|r1 rest]; [|intros H; injection H as _ <-; auto]. destruct (findRules t st) as [[|r1 [|r' rs]]|]; try discriminate; try (intros H; injection H as _ <-; auto; fail).
  unfold resolveConflict. destruct (pStack s) as [|n ns]; [discriminate|].
  match goal with |- context [lookLoop c f t ?a ?b s] => pose proof (lookLoop_left c size FS N0 f t a b s) as H; destruct (lookLoop c f t a b s) as [[tokens rules] s1|e s1| |s1] eqn:EL end; cbn [bind]; try discriminate.
  destruct rules as [|r2 rest2]; [discriminate|]. intros X. injection X as _ <-. cbn [fst app map] in H. unfold ParserTermLook.left in *. cbn [pTokens pWorld setApplied setTokens].
  assert (HT : (list_sum (map real (tl tokens)) + real t <= list_sum (map real tokens))%nat).
  { pose proof (lookLoop_first f t (mkLook [mkBranch [mkNodeRec [] [] (nTypes n) (nIndex n) (nState n)] []] [0%nat] [] None None) s tokens (r2 :: rest2) s1 EL) as (ts & ->).
    cbn [tl map]. unfold list_sum. cbn [fold_right]. lia. }
  rewrite map_app, list_sum_app. change (list_sum [real t]) with (real t + 0)%nat in H. lia.
Qed.

(** ** The main loop *)
Definition halts (used : bool) (t : option Tok) (s : pstate) : Prop :=
  exists N, (forall f, (N <= f)%nat -> forall s', parseLoop c f used t s <> NoFuel s') \/ (forall f, (N <= f)%nat -> lostAll (parseLoop c f used t s)).
Lemma states_bare (l : list nodeRec) : states (bareS l) = states l.
Proof. unfold states, bareS. rewrite map_map. apply map_ext. auto. Qed.
Definition weight (used : bool) (t : option Tok) (s : pstate) : nat := (left s + if used then O else real t)%nat.

(** a rule *)
Lemma halts_rule t0 t s : MI c t0 false t s ->
  (forall cons s2, MI c t0 cons t s2 -> (weight cons t s2 < weight false t s)%nat -> halts cons t s2) ->
  (forall cons s2, MI c t0 cons t s2 -> (weight cons t s2 <= weight false t s)%nat -> sstep g (states (pStack s)) (states (pStack s2)) -> halts cons t s2) ->
  halts false t s.
Proof.
  intros M H1 H2. destruct (pStack s) as [|n ns] eqn:EN.
  { exists 1%nat. left. intros [|f] HF s'; [lia|]. cbn [parseLoop]. rewrite EN. discriminate. }
  destruct (zget (gStates g) (nState n)) as [st|] eqn:ES.
  2: { exists 1%nat. left. intros [|f] HF s'; [lia|]. cbn [parseLoop]. rewrite EN, ES. discriminate. }
  destruct (settled (fun f => nextRule c f t st s) (fun f f' => le_nextRule c t st f f' s) (nextRule_halts t st s)) as (N & x & X1 & X2).
  destruct x as [[r|] s1|e s1| |s1]; [| | | |destruct (X1 s1 eq_refl)].
  - destruct (applyRule c t r s1) as [cons s2|e s2| |s2] eqn:EA; [| | |destruct (nf_applyRule t r s1 s2 EA)].
    2,3: exists (S N); left; intros [|f] HF s'; [lia|]; cbn [parseLoop]; rewrite EN, ES, (X2 f) by lia; cbn [bind]; rewrite EA; discriminate.
    destruct (MI_rule c t0 t s n ns st N r s1 cons s2 M EN ES (X2 N (le_n N)) EA) as (M2 & NS & FT & DR).
    assert (HH : pLost s1 = true \/ halts cons t s2).
    { destruct (pLost s1) eqn:EL; [left; auto|right]. specialize (FT eq_refl TO).
      pose proof (nextRule_left N t st s (Some r) s1 (X2 N (le_n N))) as L1. pose proof (applyRule_left t r s1 s2 cons EA NS) as L2.
      assert (SI : cons = false \/ real t = 0%nat -> sstep g (states (n :: ns)) (states (pStack s2))).
      { intros X. rewrite <- (states_bare (n :: ns)), <- (states_bare (pStack s2)). rewrite EN in DR. cbn [bareS map] in DR |- *.
        change (map bare ns) with (bareS ns) in *. apply (silent c (bare n) (bareS ns) t r cons); auto. }
      unfold weight in *. destruct cons.
      - destruct (real t) as [|k] eqn:ET; [apply H2; auto; lia|]. apply H1; auto. lia.
      - apply H2; auto. lia. }
    destruct HH as [EL|(N2 & [HN2|HN2])].
    + exists (S N). right. intros [|f] HF; [lia|]. cbn [parseLoop]. rewrite EN, ES, (X2 f) by lia. cbn [bind]. rewrite EA. cbn [bind].
      apply (parseLoop_lost t0); auto. rewrite (ns_lost _ _ NS). auto.
    + exists (S (N + N2)). left. intros [|f] HF s'; [lia|]. cbn [parseLoop]. rewrite EN, ES, (X2 f) by lia. cbn [bind]. rewrite EA. cbn [bind]. apply HN2. lia.
    + exists (S (N + N2)). right. intros [|f] HF; [lia|]. cbn [parseLoop]. rewrite EN, ES, (X2 f) by lia. cbn [bind]. rewrite EA. cbn [bind]. apply HN2. lia.
  - (* a syntax error *)
    destruct t as [t|].
    { exists (S N). left. intros [|f] HF s'; [lia|]. cbn [parseLoop]. rewrite EN, ES, (X2 f) by lia. cbn [bind syntaxError]. destruct (getExpectedToken c st); discriminate. }
    destruct (settled (fun f => nextToken c f AllTokenTypes s1) (fun f f' => le_nextToken c AllTokenTypes f f' s1) (nextToken_halts c size FS N0 AllTokenTypes s1)) as (N2 & x & Y1 & Y2).
    exists (S (N + N2)). left. intros [|f] HF s'; [lia|]. cbn [parseLoop]. rewrite EN, ES, (X2 f) by lia. cbn [bind]. unfold syntaxError. rewrite (Y2 f) by lia.
    destruct x as [t2 s2|e s2| |s2]; cbn [bind]; try discriminate; [|destruct (Y1 s2 eq_refl)].
    destruct (getExpectedToken c st); [|discriminate]. destruct t2; discriminate.
  - exists (S N). left. intros [|f] HF s'; [lia|]. cbn [parseLoop]. rewrite EN, ES, (X2 f) by lia. discriminate.
  - exists (S N). left. intros [|f] HF s'; [lia|]. cbn [parseLoop]. rewrite EN, ES, (X2 f) by lia. discriminate.
Qed.
(** a token *)
Lemma halts_token t0 t s : MI c t0 true t s ->
  (forall t2 s2, MI c t0 false t2 s2 -> (weight false t2 s2 <= weight true t s)%nat -> pStack s2 = pStack s -> halts false t2 s2) -> halts true t s.
Proof.
  intros M H. destruct (pStack s) as [|n ns] eqn:EN.
  { exists 1%nat. left. intros [|f] HF s'; [lia|]. cbn [parseLoop]. rewrite EN. discriminate. }
  destruct (checkCtx c s) as [u s1|e s1| |s1] eqn:EC; [| | |destruct (nf_checkCtx s s1 EC)].
  2,3: exists 1%nat; left; intros [|f] HF s'; [lia|]; cbn [parseLoop]; rewrite EN, EC; discriminate.
  pose proof (checkCtx_ok c s) as HC. rewrite EC in HC. cbn [post] in HC. destruct HC as [HC HQ]. pose proof (checkCtx_left _ _ _ EC) as L1.
  assert (LY : ParserStream.layersOk c s1) by (unfold ParserStream.layersOk in *; rewrite HQ; apply M).
  destruct (settled (fun f => nextToken c f (nTypes n) s1) (fun f f' => le_nextToken c (nTypes n) f f' s1) (nextToken_halts c size FS N0 (nTypes n) s1)) as (N & x & X1 & X2).
  destruct x as [t2 s2|e s2| |s2]; [| | |destruct (X1 s2 eq_refl)].
  2,3: exists (S N); left; intros [|f] HF s'; [lia|]; cbn [parseLoop]; rewrite EN, EC; cbn [bind]; rewrite (X2 f) by lia; discriminate.
  pose proof (MI_next c t0 t s u s1 N (nTypes n) t2 s2 M EC (X2 N (le_n N))) as M2.
  pose proof (nextToken_left c size FS N0 (nTypes n) N s1) as L2. rewrite (X2 N (le_n N)) in L2.
  pose proof (nextToken_ok c N (nTypes n) s1 LY) as HN. rewrite (X2 N (le_n N)) in HN. cbn [post] in HN.
  destruct (H t2 _ M2) as (N2 & [HN2|HN2]).
  - unfold weight, ParserTermLook.left in *. cbn [pWorld pTokens log]. lia.
  - cbn [log pStack]. rewrite <- EN. rewrite <- (str_stack _ _ _ HC). apply HN.
  - exists (S (N + N2)). left. intros [|f] HF s'; [lia|]. cbn [parseLoop]. rewrite EN, EC. cbn [bind]. rewrite (X2 f) by lia. cbn [bind]. apply HN2. lia.
  - exists (S (N + N2)). right. intros [|f] HF; [lia|]. cbn [parseLoop]. rewrite EN, EC. cbn [bind]. rewrite (X2 f) by lia. cbn [bind]. apply HN2. lia.
Qed.
Lemma parseLoop_halts t0 : forall m used t s, MI c t0 used t s -> (weight used t s <= m)%nat -> halts used t s.
Proof.
  induction m as [m IHm] using (well_founded_induction lt_wf).
  assert (RU : forall x t s, states (pStack s) = x -> MI c t0 false t s -> (weight false t s <= m)%nat -> halts false t s).
  { induction x as [x IHx] using (well_founded_induction (sstep_wf g NL)). intros t s EX M HW.
    assert (NX : forall t2 s2, sstep g x (states (pStack s2)) -> MI c t0 false t2 s2 -> (weight false t2 s2 <= m)%nat -> halts false t2 s2) by (intros t2 s2 HS; exact (IHx _ HS t2 s2 eq_refl)).
    apply (halts_rule t0); auto.
    - intros cons s2 M2 HL. apply (IHm (weight cons t s2)); auto. lia.
    - intros cons s2 M2 HL HS. rewrite EX in HS. destruct cons; [|apply NX; auto; lia].
      apply (halts_token t0); auto. intros t3 s3 M3 H3 E3. apply NX; auto; [rewrite E3; auto|lia]. }
  intros used t s M HW. destruct used; [|eapply RU; eauto].
  apply (halts_token t0); auto. intros t2 s2 M2 H2 _. eapply RU; eauto. lia.
Qed.

(** ** The rest of the source *)
Lemma restLoop_halts : forall m s, (left s <= m)%nat -> exists N, forall f, (N <= f)%nat -> forall s', restLoop c f s <> NoFuel s'.
Proof.
  induction m as [m IH] using (well_founded_induction lt_wf). intros s HM.
  destruct (settled (fun f => nextToken c f AllTokenTypes s) (fun f f' => le_nextToken c AllTokenTypes f f' s) (nextToken_halts c size FS N0 AllTokenTypes s)) as (N & x & X1 & X2).
  pose proof (nextToken_left c size FS N0 AllTokenTypes N s) as L. rewrite (X2 N (le_n N)) in L.
  destruct x as [[t|] s1|e s1| |s1]; [| | | |destruct (X1 s1 eq_refl)].
  2,3,4: exists (S N); intros [|f] HF s'; [lia|]; cbn [restLoop]; rewrite (X2 f) by lia; discriminate.
  destruct (cType c t =? EoiTokenType) eqn:EE.
  { exists (S N). intros [|f] HF s'; [lia|]. cbn [restLoop]. rewrite (X2 f) by lia. cbn [bind]. rewrite EE. discriminate. }
  destruct (isSideType g (cType c t)) eqn:ES.
  - cbn [ParserTermLook.real] in L. rewrite EE in L. destruct (IH (left s1)) with (s := log (EvRest t) s1) as (N2 & HN2); [lia|unfold ParserTermLook.left; cbn [log pWorld pTokens]; auto|].
    exists (S (N + N2)). intros [|f] HF s'; [lia|]. cbn [restLoop]. rewrite (X2 f) by lia. cbn [bind]. rewrite EE, ES. apply HN2. lia.
  - exists (S N). intros [|f] HF s'; [lia|]. cbn [restLoop]. rewrite (X2 f) by lia. cbn [bind]. rewrite EE, ES. discriminate.
Qed.

Lemma restLoop_lost : forall f s, pLost s = true -> lostAll (restLoop c f s).
Proof.
  induction f as [|f IH]; intros s H; cbn [restLoop]; [exact H|]. pose proof (nextToken_lost f AllTokenTypes s) as L.
  destruct (nextToken c f AllTokenTypes s) as [[t|] s1|e s1| |s1]; cbn [bind lostAll] in *; try exact Logic.I; [|congruence].
  destruct (_ =? _); [cbn; congruence|]. destruct (isSideType _ _); [|exact Logic.I]. apply IH. cbn. congruence.
Qed.
Lemma parseFrom_halts w t0 : exists N, forall f, (N <= f)%nat -> forall s, parseFrom c f w t0 = NoFuel s -> pLost s = true.
Proof.
  unfold parseFrom. pose proof (MI_start c w t0) as MS. pose proof (nf_pushNode RootNode (Some t0)) as NP. unfold start in *.
  destruct (pushNode c RootNode (Some t0) _) as [u s|e s| |s] eqn:EP; [| | |destruct (NP _ s EP)].
  2,3: exists O; intros f HF s'; discriminate.
  cbn [bind]. specialize (MS u s eq_refl). destruct (parseLoop_halts t0 (weight true None s) true None s MS (Nat.le_refl _)) as (N & HN).
  unfold parse. destruct HN as [HN|HN].
  - destruct (settled (fun f => parseLoop c f true None s) (fun f f' => le_parseLoop c f f' true None s) (ex_intro _ N HN)) as (N1 & x & X1 & X2).
    destruct x as [[used t] s1|e s1| |s1]; [| | |destruct (X1 s1 eq_refl)].
    2,3: exists N1; intros f HF s'; rewrite (X2 f) by lia; discriminate.
    destruct (if used then Some s1 else match t with None => None | Some t => Some (if cType c t =? EoiTokenType then s1 else setWorld s1 (cUnread c t (fst (pWorld s1)), snd (pWorld s1))) end) as [s2|] eqn:E2.
    2: { exists N1. intros f HF s'. rewrite (X2 f) by lia. cbn [bind]. rewrite E2. discriminate. }
    destruct (restLoop_halts (left s2) s2 (Nat.le_refl _)) as (N2 & HN2). exists (N1 + N2)%nat. intros f HF s'. rewrite (X2 f) by lia. cbn [bind]. rewrite E2.
    destruct (_ && _); [|discriminate]. specialize (HN2 f). destruct (restLoop c f s2) as [u3 s3|e s3| |s3]; cbn [bind]; try discriminate.
    destruct (HN2 ltac:(lia) s3 eq_refl).
  - exists N. intros f HF s'. specialize (HN f HF). destruct (parseLoop c f true None s) as [[used t] s1|e s1| |s1]; cbn [bind lostAll] in *; try discriminate.
    2: intros X; injection X as <-; auto.
    destruct (if used then Some s1 else _) as [s2|] eqn:E2; [|discriminate].
    assert (L2 : pLost s2 = true). { destruct used; [injection E2 as <-; auto|]. destruct t as [t|]; [|discriminate]. injection E2 as <-. destruct (_ =? _); auto. }
    destruct (_ && _); [|discriminate]. pose proof (restLoop_lost f s2 L2) as HR. destruct (restLoop c f s2); cbn [bind]; try discriminate. intros X. injection X as <-. exact HR.
Qed.

(** ** Without ambiguous rules *)
Definition unlost {A} (m : res A) : Prop := match m with Done _ s' | NoFuel s' => pLost s' = false | _ => True end.
Lemma parseLoop_unlost t0 : gMultiRules g = [] -> forall f used t s, MI c t0 used t s -> unlost (parseLoop c f used t s).
Proof.
  intros GM. induction f as [|f IH]; intros used t s M; pose proof (m_lost _ _ _ _ _ M GM) as PL; cbn [parseLoop]; [exact PL|].
  destruct (pStack s) as [|n ns] eqn:EN; [exact PL|]. destruct used.
  - pose proof (checkCtx_ok c s) as HC. pose proof (nf_checkCtx s) as NC. destruct (checkCtx c s) as [u s1|e s1| |s1] eqn:EC; cbn [bind]; try exact Logic.I; [|destruct (NC s1 eq_refl)].
    cbn [post] in HC. destruct HC as [HC _]. pose proof (str_lost _ _ _ HC) as L1.
    pose proof (nextToken_lost f (nTypes n) s1) as L2. destruct (nextToken c f (nTypes n) s1) as [t2 s2|e s2| |s2] eqn:ET; cbn [bind]; try exact Logic.I.
    + eapply IH. eapply MI_next; eauto.
    + cbn. congruence.
  - destruct (zget (gStates g) (nState n)) as [st|] eqn:ES; [|exact Logic.I].
    assert (L1 : match nextRule c f t st s with Done _ s' => pLost s' = false | NoFuel _ => False | _ => True end).
    { unfold nextRule. destruct (pApplied s); [|exact PL]. destruct (findRules t st) as [[|r1 [|r2 rs]]|] eqn:EF; try exact PL; try exact Logic.I.
      apply findRules_one in EF; auto. cbn in EF. lia. }
    destruct (nextRule c f t st s) as [[r|] s1|e s1| |s1] eqn:ER; cbn [bind] in *; try exact Logic.I; try tauto.
    + pose proof (nf_applyRule t r s1) as NA. destruct (applyRule c t r s1) as [cons s2|e s2| |s2] eqn:EA; cbn [bind]; try exact Logic.I; [|destruct (NA s2 eq_refl)].
      destruct (MI_rule c t0 t s n ns st f r s1 cons s2 M EN ES ER EA) as (M2 & NS & _). eapply IH; exact M2.
    + unfold syntaxError. destruct t as [t|].
      * destruct (getExpectedToken c st); exact Logic.I.
      * pose proof (nextToken_lost f AllTokenTypes s1) as L2. destruct (nextToken c f AllTokenTypes s1) as [t2 s2|e s2| |s2] eqn:ET; cbn [bind]; try exact Logic.I.
        -- destruct (getExpectedToken c st); [|exact Logic.I]. destruct t2; exact Logic.I.
        -- cbn. congruence.
Qed.
Lemma restLoop_unlost : forall f s, pLost s = false -> unlost (restLoop c f s).
Proof.
  induction f as [|f IH]; intros s H; cbn [restLoop]; [exact H|]. pose proof (nextToken_lost f AllTokenTypes s) as L.
  destruct (nextToken c f AllTokenTypes s) as [[t|] s1|e s1| |s1]; cbn [bind unlost] in *; try exact Logic.I; [|congruence].
  destruct (_ =? _); [cbn; congruence|]. destruct (isSideType _ _); [|exact Logic.I]. apply IH. cbn. congruence.
Qed.
Lemma parseFrom_unlost f w t0 : gMultiRules g = [] -> unlost (parseFrom c f w t0).
Proof.
  intros GM. unfold parseFrom. pose proof (MI_start c w t0) as MS. pose proof (nf_pushNode RootNode (Some t0)) as NP. unfold start in *.
  destruct (pushNode c RootNode (Some t0) _) as [u s|e s| |s] eqn:EP; try exact Logic.I; [|destruct (NP _ s EP)].
  cbn [bind]. specialize (MS u s eq_refl). pose proof (parseLoop_unlost t0 GM f true None s MS) as HL. unfold parse.
  destruct (parseLoop c f true None s) as [[used t] s1|e s1| |s1]; cbn [bind unlost] in *; auto.
  destruct (if used then Some s1 else _) as [s2|] eqn:E2; [|exact Logic.I].
  assert (L2 : pLost s2 = false). { destruct used; [injection E2 as <-; auto|]. destruct t as [t|]; [|discriminate]. injection E2 as <-. destruct (_ =? _); auto. }
  destruct (_ && _); [|exact L2]. pose proof (restLoop_unlost f s2 L2) as HR. destruct (restLoop c f s2); cbn [bind unlost] in *; auto.
Qed.
End P.
