(** Looking ahead in token hooks (C30), cancellation (C32). *)
From Coq Require Import ZArith List Bool Lia Arith.
From Verif Require Import Base BaseProofs Grammar Rules Parser ParserSpec ParserProofs ParserStream ParserWorld ParserFlowSpec ParserEnd ParserDemo TablesCheck Prop_Parser.
Import ListNotations.
Open Scope Z_scope.

Section P.
Context {Tok Src W E Inst R : Type}.
Variable c : config Tok Src W E Inst R.
Notation g := (cGrammar c).
Notation pstate := (pstate Tok Src W E Inst R).
Notation event := (event Tok E Inst R).
Notation res := (res Tok Src W E Inst R).
Notation prog := (prog Tok Src W E).

(** *** C30 *)
(** A hook may look ahead as it likes: if it does not change the source itself, the source and
    all the queues of tokens are the same after it. *)
Theorem peek_leaves_stream t layer hooks s emit extra s' :
  (forall w, fst (fst (cCtx c w)) = fst w) ->
  (forall h, In (Some h) hooks -> quietProg (h t)) ->
  handleToken c (Some t) layer hooks s = Done (emit, extra) s' ->
  fst (pWorld s') = fst (pWorld s) /\ pQueues s' = pQueues s /\ pTokens s' = pTokens s.
Proof.
  intros HC HQ. unfold handleToken, checkCtx. specialize (HC (pWorld s)). destruct (cCtx c (pWorld s)) as [w [e|]]; cbn [ret bind]; [discriminate|]. cbn [fst] in HC.
  destruct (hookFor c hooks t) as [[hook|]|] eqn:EH; [| |discriminate].
  - destruct (runHook c _ _ _ _) as [[tc w'] [[em ex] e]] eqn:ER. destruct e as [e|]; cbn [ret bind]; [discriminate|]. intros H. injection H as _ _ <-.
    cbn. apply hookFor_In in EH. pose proof (runHook_quiet c _ _ (HQ _ EH) _ _ _ _ _ ER) as X. cbn in X. rewrite X, HC. auto.
  - intros H. injection H as _ _ <-. cbn. auto.
Qed.

(** Looking ahead [n] times before doing something else that does not use the results *)
Fixpoint peekFirst (n : nat) (p : prog) : prog :=
  match n with O => p | S n => PPeek (fun _ => peekFirst n p) end.
(** ... makes no difference at all to what becomes of the token. *)
Theorem peeks_have_no_effect n t layer hooks1 hooks2 s emit extra e :
  hookFor c hooks1 t = Some (Some (fun _ => peekFirst n (PRet emit extra e))) ->
  hookFor c hooks2 t = Some (Some (fun _ => PRet emit extra e)) ->
  handleToken c (Some t) layer hooks1 s = handleToken c (Some t) layer hooks2 s.
Proof.
  intros H1 H2. unfold handleToken, checkCtx. destruct (cCtx c (pWorld s)) as [w [e'|]]; cbn [ret bind]; [reflexivity|]. rewrite H1, H2.
  assert (K : forall n above tc w, exists tc' w', runHook c above (peekFirst n (PRet emit extra e)) tc w = (tc', w', (emit, extra, e)) /\ restore tc' w' = restore tc w).
  { clear. induction n as [|n IH]; intros above tc w; cbn [peekFirst runHook]; [eauto|].
    destruct (peekToken c above tc (fst w)) as [[tc1 src1] x] eqn:EP. destruct (IH above tc1 (src1, snd w)) as (tc' & w' & R1 & R2). exists tc', w'. split; auto. rewrite R2.
    unfold peekToken in EP. unfold restore. destruct w as [src wd]. destruct tc as [d [snap|]]; cbn [tcSnap tcDistance fst snd] in *.
    - destruct (fetchToken c AllTokenTypes src) as [src2 r2]. injection EP as <- <- <-. auto.
    - destruct (peekQueues above d).
      + injection EP as <- <- <-. auto.
      + destruct (fetchToken c AllTokenTypes src) as [src2 r2]. injection EP as <- <- <-. auto. }
  destruct (K n (skipn (S layer) (pQueues (log EvCheck (setWorld s w)))) (mkTC 0 None) (pWorld (log EvCheck (setWorld s w)))) as (tc' & w' & R1 & R2).
  rewrite R1. cbn [runHook]. rewrite R2. reflexivity.
Qed.

(** What the calls return: the tokens waiting in the queues of the further layers, then the
    tokens of the source, then end-of-input tokens. *)
Fixpoint peekedAt (n : nat) (above : list (list Tok)) (tc : tcontext) (src : Src) : list (option Tok * option E) :=
  match n with
  | O => []
  | S n => let '(tc, src, r) := peekToken c above tc src in r :: peekedAt n above tc src
  end.
Lemma peekQueues_nth (above : list (list Tok)) : forall d, 0 <= d -> peekQueues above d = nth_error (concat above) (Z.to_nat d).
Proof.
  induction above as [|q r IH]; intros d HD; cbn [peekQueues concat].
  - destruct (Z.to_nat d); auto.
  - destruct (Z.ltb_spec d (zlen q)) as [HL|HL].
    + unfold zget. destruct (Z.ltb_spec d 0); [lia|]. rewrite nth_error_app1; auto. unfold zlen in HL. lia.
    + rewrite IH by lia. rewrite nth_error_app2 by (unfold zlen in HL; lia). f_equal. unfold zlen. lia.
Qed.
Lemma firstn_drop1 {A} (l : list A) d : (d < length l)%nat -> forall x, nth_error l d = Some x -> skipn d l = x :: skipn (S d) l.
Proof. revert d. induction l as [|a l IH]; intros d HD x; cbn in HD; [lia|]. destruct d; cbn; [intros H; injection H as ->; auto|]. apply IH. lia. Qed.
Theorem peek_sees_the_future (view : Src -> list Tok) eoi above src n :
  sourceOf c view eoi -> (forall src, exists src' t, fetchToken c AllTokenTypes src = (src', (Some t, None))) ->
  exists eois, Forall (eq eoi) eois /\
    peekedAt n above (mkTC 0 None) src = map (fun t => (Some t, None)) (firstn n (concat above ++ view src ++ eois)).
Proof.
  intros HS HF.
  assert (FT : forall n src tc, tcSnap tc <> None -> exists eois, Forall (eq eoi) eois /\
     peekedAt n above tc src = map (fun t => (Some t, None)) (firstn n (view src ++ eois))).
  { clear n src. induction n as [|n IH]; intros src tc HT; [exists []; auto|]. cbn [peekedAt]. unfold peekToken. destruct (tcSnap tc) eqn:ET; [|congruence].
    destruct (HF src) as (src' & t & EF). rewrite EF. cbn. destruct HS as (_ & S1 & _). destruct (IH src' tc) as (eois & A & C); [congruence|].
    destruct (S1 _ _ _ _ EF) as [V|(V1 & -> & V2)].
    - exists eois. rewrite V. cbn. split; auto. rewrite C. auto.
    - rewrite V2 in *. cbn [app] in *. exists (eoi :: eois). rewrite V1. cbn. split; auto. rewrite C. auto. }
  assert (FQ : forall n d src, 0 <= d -> exists eois, Forall (eq eoi) eois /\
     peekedAt n above (mkTC d None) src = map (fun t => (Some t, None)) (firstn n (skipn (Z.to_nat d) (concat above) ++ view src ++ eois))).
  { clear n src. induction n as [|n IH]; intros d src HD; [exists []; auto|]. cbn [peekedAt]. unfold peekToken. cbn [tcSnap tcDistance]. rewrite peekQueues_nth by auto.
    destruct (nth_error (concat above) (Z.to_nat d)) as [t|] eqn:EN.
    - destruct (IH (d + 1) src ltac:(lia)) as (eois & A & B). exists eois. split; auto.
      assert (HL : (Z.to_nat d < length (concat above))%nat) by (apply nth_error_Some; congruence).
      rewrite (firstn_drop1 _ _ HL _ EN). replace (Z.to_nat (d + 1)) with (S (Z.to_nat d)) in B by lia. cbn [app firstn map]. rewrite B. auto.
    - apply nth_error_None in EN. rewrite skipn_all2 by auto. cbn [app].
      destruct (HF src) as (src' & t & EF). rewrite EF. destruct HS as (_ & S1 & _). destruct (FT n src' (mkTC (d + 1) (Some src)) ltac:(discriminate)) as (eois & A & C).
      destruct (S1 _ _ _ _ EF) as [V|(V1 & -> & V2)].
      + exists eois. rewrite V. cbn. split; auto. rewrite C. auto.
      + rewrite V2 in *. cbn [app] in *. exists (eoi :: eois). rewrite V1. cbn. split; auto. rewrite C. auto. }
  destruct (FQ n 0 src ltac:(lia)) as (eois & A & B). exists eois. split; auto.
Qed.
(** *** C32 *)
(** [cancelled]: the context has been cancelled.  The context tells so, and this lasts. *)
Record cancellation (cancelled : W -> Prop) : Prop := mkCancel {
  cc_ctx : forall w, cancelled (snd w) -> (exists e, snd (cCtx c w) = Some e) /\ cancelled (snd (fst (cCtx c w)));
  cc_newNode : forall i n t w, cancelled (snd w) -> cancelled (snd (fst (mNewNode (cMethods c) i n t w)));
  cc_node : forall i n x w, cancelled (snd w) -> cancelled (snd (fst (mHandleNode (cMethods c) i n x w)));
  cc_token : forall i t w, cancelled (snd w) -> cancelled (snd (fst (mHandleToken (cMethods c) i t w)));
  cc_end : forall i w, cancelled (snd w) -> cancelled (snd (fst (mEndNode (cMethods c) i w)));
  cc_create : forall table h n t w, In table (cNodeHooks c) -> In (Some h) table -> cancelled (snd w) -> cancelled (snd (fst (h n t w)))
}.
Section Cancel.
Variable cancelled : W -> Prop.
Hypothesis HC : cancellation cancelled.
(** takes no token and calls no token hook *)
Definition idle (ev : event) : Prop := match ev with EvNext _ | EvRest _ | EvDecide _ _ _ _ => False | _ => True end.
Definition still (s s' : pstate) : Prop := cancelled (snd (pWorld s')) /\ exists l, pLog s' = l ++ pLog s /\ Forall idle l.
Definition stillR {A} (s : pstate) (m : res A) : Prop := match m with Done _ s' | Fail _ s' | NoFuel s' => still s s' | Panic => True end.
Notation canc s := (cancelled (snd (pWorld s))).
Lemma still_refl s s' : canc s -> pLog s' = pLog s -> pWorld s' = pWorld s -> still s s'.
Proof. intros H E1 E2. split; [rewrite E2; auto|]. exists []. auto. Qed.
Lemma still_trans s1 s2 s3 : still s1 s2 -> still s2 s3 -> still s1 s3.
Proof. intros (_ & l & A & B) (C & m & D & F). split; auto. exists (m ++ l). rewrite D, A, app_assoc. split; auto. apply Forall_app. auto. Qed.
Lemma stillR_bind {A B} s (m : res A) (k : A -> pstate -> res B) : stillR s m -> (forall a s', canc s' -> stillR s' (k a s')) -> stillR s (bind m k).
Proof.
  destruct m as [a s1|e s1| |s1]; cbn; auto. intros H1 H2. specialize (H2 a s1 (proj1 H1)). destruct (k a s1); cbn in *; auto; eapply still_trans; eauto.
Qed.
Lemma stillR_from {A} s s1 (m : res A) : pLog s1 = pLog s -> stillR s1 m -> stillR s m.
Proof. unfold stillR, still. intros E1. destruct m; rewrite ?E1; auto. Qed.
Lemma stillR_nret s ev w e : cancelled (snd w) -> idle ev -> stillR s (nret e (log ev (setWorld s w))).
Proof. intros H HI. destruct e; cbn; (split; [auto|]); [exists [EvNodeFail e; ev]|exists [ev]]; repeat constructor; auto. Qed.
Ltac sr := apply still_refl; auto.
Lemma sl_newNodes : forall hooks layer node t s, canc s -> stillR s (newNodes c layer hooks node t s).
Proof.
  induction hooks as [|[i|] r IH]; intros layer node t s H; cbn [newNodes]; [sr| |auto]. pose proof (cc_newNode _ HC i node t _ H) as X. destruct (mNewNode _ _ _ _ _) as [w e].
  apply stillR_bind; [apply stillR_nret; cbn; auto|auto].
Qed.
Lemma sl_handleTokens : forall hooks layer t s, canc s -> stillR s (handleTokens c layer hooks t s).
Proof.
  induction hooks as [|[i|] r IH]; intros layer t s H; cbn [handleTokens]; [sr| |auto]. pose proof (cc_token _ HC i t _ H) as X. destruct (mHandleToken _ _ _ _) as [w e].
  apply stillR_bind; [apply stillR_nret; cbn; auto|auto].
Qed.
Lemma sl_endNodes : forall hooks layer s, canc s -> stillR s (endNodes c layer hooks s).
Proof.
  induction hooks as [|[i|] r IH]; intros layer s H; cbn [endNodes]; [sr| |].
  - pose proof (cc_end _ HC i _ H) as X. destruct (mEndNode _ _ _) as [w [x e]]. apply stillR_bind; [apply stillR_nret; cbn; auto|]. intros _ s1 H1.
    apply stillR_bind; [|intros; sr]. destruct (_ && _); [|apply IH; auto]. apply (stillR_from s1 (setLast s1 x)); auto.
  - apply stillR_bind; [apply IH; auto|]. intros; sr.
Qed.
Lemma sl_handleNodes : forall hooks layer node results s, canc s -> stillR s (handleNodes c layer hooks node results s).
Proof.
  induction hooks as [|[i|] r IH]; intros layer node results s H; cbn [handleNodes]; [sr| |auto].
  destruct results as [|x xs]; [exact I|]. pose proof (cc_node _ HC i node x _ H) as X. destruct (mHandleNode _ _ _ _ _) as [w e].
  apply stillR_bind; [apply stillR_nret; cbn; auto|auto].
Qed.
Lemma sl_newHooks : forall tables layer node t (s : pstate), (forall table, In table tables -> In table (cNodeHooks c)) -> canc s -> stillR s (newHooks layer tables node t s).
Proof.
  induction tables as [|table r IH]; intros layer node t s HT H; cbn [newHooks]; [sr|].
  apply stillR_bind; [|intros; apply stillR_bind; [apply IH; auto; intros; apply HT; right; auto|intros; sr]].
  unfold getNodeHook. destruct (zget table (node + 1)) as [h|] eqn:E1; [|exact I]. destruct (zget table 0) as [any|] eqn:E2; [|exact I].
  destruct (match h with Some _ => h | None => any end) as [h'|] eqn:EH; [|sr].
  assert (HI : In (Some h') table) by (apply zget_In in E1; apply zget_In in E2; destruct h; congruence).
  pose proof (cc_create _ HC table h' node t _ (HT table (or_introl eq_refl)) HI H) as X. destruct (h' _ _ _) as [w [i e]].
  apply stillR_bind; [apply stillR_nret; cbn; auto|intros; sr].
Qed.
Lemma sl_handleTokenList hooks : forall ts s, canc s -> stillR s (handleTokenList c hooks ts s).
Proof. induction ts; intros s H; cbn [handleTokenList]; [sr|]. apply stillR_bind; [apply sl_handleTokens; auto|auto]. Qed.
Lemma sl_handleNodeSides s : canc s -> stillR s (handleNodeSides c s).
Proof. intros H. unfold handleNodeSides. destruct (pStack s); [sr|]. apply stillR_bind; [apply sl_handleTokenList; auto|intros; sr]. Qed.
Lemma sl_pushNode node t s : canc s -> stillR s (pushNode c node t s).
Proof.
  intros H. unfold pushNode. apply stillR_bind; [apply sl_handleNodeSides; auto|]. intros _ s1 H1. destruct (zget (gNodes g) node) as [nt|]; [|exact I].
  apply stillR_bind; [destruct (pStack s1); [sr|apply sl_newNodes; auto]|]. intros _ s2 H2.
  apply stillR_bind; [apply sl_newHooks; auto|]. intros hooks s3 H3. destruct (zget (gStates g) (gnFirst nt)); [sr|exact I].
Qed.
Lemma sl_popLoop : forall stack sides s, canc s -> stillR s (popLoop c stack sides s).
Proof.
  induction stack as [|n rest IH]; intros sides s H; cbn [popLoop]; [sr|].
  destruct (negb _); [sr|]. apply stillR_bind; [destruct rest; [apply sl_handleTokenList; auto|sr]|]. intros _ s1 H1.
  apply stillR_bind; [apply sl_endNodes; auto|]. intros results s2 H2. destruct rest as [|p qq]; [sr|].
  apply stillR_bind; [|intros _ s3 H3; apply IH; auto]. apply (stillR_from s2 (setStack s2 (p :: qq))); auto. apply sl_handleNodes; auto.
Qed.
Lemma sl_applyRule t r s : canc s -> stillR s (applyRule c t r s).
Proof.
  intros H. unfold applyRule. destruct (pStack s) as [|n st]; [exact I|]. destruct (if rState r =? repeatState then _ else _) as [n'|]; [|exact I].
  apply stillR_bind; [|intros _ s1 H1; apply stillR_bind; [|intros; sr]].
  - apply (stillR_from s (setTop s n')); auto. destruct (negb _); [apply sl_pushNode; auto|]. destruct (_ || _); [|sr]. unfold handleNodeToken. destruct t as [t|]; [|sr].
    destruct (pStack (setTop s n')) as [|m qq]; [exact I|]. destruct (isSideToken (cType c) g (Some t)); [sr|].
    apply stillR_bind; [apply sl_handleNodeSides; auto|]. intros; apply sl_handleTokens; auto.
  - destruct (pStack s1) as [|m qq] eqn:ES; [exact I|]. destruct (nState m =? FinalState); [|sr]. unfold popNode. rewrite ES.
    apply (stillR_from s1 (setTop s1 (setNSides m []))); auto. apply sl_popLoop; auto.
Qed.
Lemma sl_checkCtx s : canc s -> exists e s', checkCtx c s = Fail (External e) s' /\ still s s'.
Proof.
  intros H. destruct (cc_ctx _ HC _ H) as [(e & H1) H2]. unfold checkCtx. destruct (cCtx c (pWorld s)) as [w e']. cbn in H1, H2. subst e'. cbn.
  do 2 eexists. split; [reflexivity|]. split; auto. exists [EvFail e; EvCheck]. repeat constructor.
Qed.
Lemma sl_handleToken t layer hooks s : canc s -> stillR s (handleToken c t layer hooks s).
Proof.
  intros H. unfold handleToken. destruct t as [t|]; [|sr]. destruct (sl_checkCtx s H) as (e & s' & -> & HS). exact HS.
Qed.
Lemma sl_appendExtra layer : forall extra s, canc s -> stillR s (appendExtra c layer extra s).
Proof.
  induction extra as [|t r IH]; intros s H; cbn [appendExtra]; [sr|]. destruct (isValidType c (cType c t)); cbn [negb].
  - apply (stillR_from s (setQueue s layer (nth layer (pQueues s) [] ++ [t]))); auto.
  - cbn. split; auto. exists [EvWrong t]. repeat constructor.
Qed.
Lemma still_log s s' ev : canc s -> idle ev -> pLog s' = ev :: pLog s -> canc s' -> still s s'.
Proof. intros H HI E1 H2. split; auto. exists [ev]. split; auto. Qed.
Lemma sl_pullToken fuel types : forall hks layer s, canc s -> stillR s (pullToken c fuel types hks layer s).
Proof.
  induction hks as [|hooks hks IH]; intros layer s H; cbn [pullToken].
  - destruct (fetchToken c types _) as [src [t e]]. destruct e as [e|]; cbn [ret bind stillR]; (eapply still_log; [auto| |reflexivity|exact H]; exact I).
  - destruct (nth layer (pQueues s) []); [|eapply still_log; [auto| |reflexivity|exact H]; exact I].
    set (pull := pullToken c fuel types hks (S layer)) in *.
    assert (HP : forall s, canc s -> stillR s (pull s)) by (intros; apply IH; auto). clearbody pull.
    generalize fuel at 1. intros f. revert s H. induction f as [|f IHf]; intros s H; cbn [pullLoop]; [sr|].
    apply stillR_bind; [apply HP; auto|]. intros t s1 H1. apply stillR_bind; [apply sl_handleToken; auto|]. intros [emit extra] s2 H2.
    apply stillR_bind; [apply sl_appendExtra; auto|]. intros _ s3 H3. destruct emit; [eapply still_log; [auto| |reflexivity|exact H3]; exact I|].
    destruct (nth layer (pQueues s3) []); [apply IHf; auto|eapply still_log; [auto| |reflexivity|exact H3]; exact I].
Qed.
Lemma sl_nextToken fuel types s : canc s -> stillR s (nextToken c fuel types s).
Proof.
  unfold nextToken. destruct (pTokens s); [|intros; sr]. revert s. induction fuel as [|f IH]; intros s H; cbn [nextLoop]; [sr|].
  apply stillR_bind; [apply sl_pullToken; auto|]. intros t s1 H1. destruct (_ && _); [sr|apply IH; auto].
Qed.
Lemma sl_lookLoop : forall fuel t tokens k s, canc s -> stillR s (lookLoop c fuel t tokens k s).
Proof.
  induction fuel as [|f IH]; intros t tokens k s H; cbn [lookLoop]; [sr|].
  destruct (lookRound c (S f) t 0 (kNext k) _ (pLost s)) as [[[k1 lost]|]|]; [|exact I|sr].
  set (fin := fun s2 : pstate => match match kNext k1 with b :: _ => Some b | [] => match kSuccess k1 with Some b => Some b | None => kError k1 end end with
      | None => Panic | Some b => match nth_error (kStore k1) b with Some br => Done (tokens ++ [t], bRules br) s2 | None => Panic end end).
  assert (FIN : forall s2, canc s2 -> stillR s2 (fin s2)).
  { intros s2 H2. unfold fin. destruct (match kNext k1 with b :: _ => Some b | [] => _ end) as [b|]; [|exact I]. destruct (nth_error (kStore k1) b); [sr|exact I]. }
  apply (stillR_from s (setLost s lost)); auto. assert (H0 : canc (setLost s lost)) by exact H.
  destruct (length (kNext k1) <=? 1)%nat; [exact (FIN (setLost s lost) H0)|]. destruct (lookTypes (kStore k1) (kNext k1) =? 0); [exact (FIN (setLost s lost) H0)|].
  pose proof (sl_nextToken (S f) (lookTypes (kStore k1) (kNext k1)) (setLost s lost) H0) as HN.
  destruct (nextToken c (S f) _ (setLost s lost)) as [t2 s2|e2 s2| |s2]; auto.
  - apply (stillR_bind _ (Done t2 s2) (fun t2 s2 => lookLoop c f t2 (tokens ++ [t]) k1 s2)); auto.
  - apply (stillR_bind _ (Done tt s2) (fun _ s2 => fin s2)); auto.
Qed.
Lemma sl_nextRule fuel t st s : canc s -> stillR s (nextRule c fuel t st s).
Proof.
  intros H. unfold nextRule. destruct (pApplied s) as [|r rest]; [|sr].
  destruct (findRules _ _ _ g t st) as [[|r1 [|r2 rs]]|]; [sr|sr| |exact I].
  unfold resolveConflict. destruct (pStack s) as [|n ns]; [exact I|]. apply stillR_bind; [apply sl_lookLoop; auto|].
  intros [tokens rules] s1 H1. destruct rules; [exact I|sr].
Qed.
End Cancel.

(** After the cancellation the parser takes no token and calls no token hook; it may finish
    with the token it already has.  Here for the syntax part of the parse, whatever state it is in. *)
Theorem cancellation_stops_partial cancelled fuel used t s :
  cancellation cancelled -> cancelled (snd (pWorld s)) ->
  match parseLoop c fuel used t s with
  | Done _ s' | Fail _ s' | NoFuel s' => exists l, pLog s' = l ++ pLog s /\ Forall idle l
  | Panic => True
  end.
Proof.
  intros HC H. assert (X : stillR cancelled s (parseLoop c fuel used t s)).
  { revert used t s H. induction fuel as [|f IH]; intros used t s H; cbn [parseLoop]; [apply still_refl; auto|].
    destruct (pStack s) as [|n ns]; [apply still_refl; auto|]. destruct used.
    - destruct (sl_checkCtx _ HC s H) as (e & s' & -> & HS). exact HS.
    - destruct (zget (gStates g) (nState n)) as [st|]; [|exact I]. apply stillR_bind; [apply sl_nextRule; auto|]. intros [r|] s1 H1.
      + apply stillR_bind; [apply sl_applyRule; auto|]. intros; apply IH; auto.
      + unfold syntaxError. apply stillR_bind; [destruct t; [apply still_refl; auto|apply sl_nextToken; auto]|].
        intros t2 s2 H2. destruct (getExpectedToken c st); [|exact I]. destruct t2 as [t2|]; [|exact I]. apply still_refl; auto. }
  destruct (parseLoop c fuel used t s); cbn in X; auto; apply X.
Qed.
(** When it needs another token, it returns the error of the context at once. *)
Theorem cancellation_returns_error cancelled fuel t s :
  cancellation cancelled -> cancelled (snd (pWorld s)) -> pStack s <> [] ->
  exists e s', parseLoop c (S fuel) true t s = Fail (External e) s' /\ pLog s' = EvFail e :: EvCheck :: pLog s.
Proof.
  intros HC H HS. cbn [parseLoop]. destruct (pStack s); [congruence|]. destruct (cc_ctx _ HC _ H) as [(e & H1) _]. unfold checkCtx.
  destruct (cCtx c (pWorld s)) as [w e']. cbn in H1. subst e'. cbn. eauto.
Qed.
End P.

Module Example1.
  (** cancelled when the world is not 0; EndNode of node 1 cancels *)
  Definition methods1 : methods dTok (list dTok) Z Z Z Z := mkMethods
    (fun i n t w => (w, None)) (fun i n x w => (w, None)) (fun i t w => (w, None)) (fun i w => ((fst w, if i =? 1 then 1 else snd w), (Some i, None))).
  Definition ctx (w : list dTok * Z) : list dTok * Z * option Z := (w, if snd w =? 0 then None else Some 99).
  Definition conf (g : grammar) (full : bool) := let d := demo g [] true full in mkConfig (cType d) (cText d) (cUpper d) methods1 (cGrammar d) (cLexers d) (cLiterals d)
    (cTokenHooks d) (cNodeHooks d) ctx (cPassSides d) (cWatchNodes d) (cFullSource d) (cUnread d).
  Example cancelling g full : cancellation (conf g full) (fun w => w <> 0).
  Proof.
    constructor; cbn; auto.
    - intros [src w] H. cbn in *. destruct (Z.eqb_spec w 0); [congruence|]. split; eauto.
    - intros i [src w] H. cbn in *. destruct (i =? 1); auto. discriminate.
    - intros table h n t w [<-|[]] [X|X] H; [injection X as <-; exact H|]. apply in_map_iff in X as (x & X & _). discriminate.
  Qed.
  Example peeking : exists w, peekedAt (demo dGrammar [] true true) 4 [[(7, 1)]; []; [(8, 2)]] (mkTC 0 None) [(0, 1)] = w /\
    w = [(Some (7, 1), None); (Some (8, 2), None); (Some (0, 1), None); (Some dEoi, None)].
  Proof. eexists. split; reflexivity. Qed.
  Definition peeker : tokenHook (Tok := dTok) (Src := list dTok) (W := Z) (E := Z) := fun t => PPeek (fun r => PPeek (fun _ => PRet true match fst r with Some x => [x] | None => [] end None)).
  Example peek_hook : exists s, handleToken (demo dGrammar [[None; None; Some peeker]] true true) (Some (0, 1)) 0 [None; None; Some peeker]
      (mkP ([(1, 2); (2, 3)], 0) [] [[]] [] None [] [] false) = Done (true, [(1, 2)]) s /\ fst (pWorld s) = [(1, 2); (2, 3)].
  Proof. eexists. split; reflexivity. Qed.
End Example1.
(** C32 refuted: after the root node, with the full source wanted, the context is not
    checked (unless there are token hooks). *)
Theorem cancellation_stops_refuted : exists r s,
  cancellation (Example1.conf dGrammar true) (fun w => w <> 0) /\
    parseFrom (Example1.conf dGrammar true) 50 ([(0, 1); (2, 2); (3, 3); (4, 4); (4, 5)], 0) (0, 1) = Done r s /\
    snd (pWorld s) <> 0 /\ rests (rev (pLog s)) = [(4, 4); (4, 5); dEoi].
Proof. do 2 eexists. split; [apply Example1.cancelling|]. split; [vm_compute; reflexivity|]. split; [discriminate|vm_compute; reflexivity]. Qed.

Print Assumptions peek_leaves_stream.
Print Assumptions peeks_have_no_effect.
Print Assumptions peek_sees_the_future.
Print Assumptions cancellation_stops_partial.
Print Assumptions cancellation_returns_error.
Print Assumptions cancellation_stops_refuted.
