(** C65: a syntax error points at the first wrong token and names a token that would have been right. *)
From Coq Require Import ZArith List Bool Lia Sorted Relations Permutation.
From Verif Require Import Base BaseProofs Grammar RulesSpec Rules Parser ParserSpec ParserProofs ParserStream ParserErr ParserSafeSpec ParserFlowSpec PredictSpec PredictTree ExpectSpec ExpectProofs ExpectCheck Prop_Predict ParserDemo SafeCheck.
From Coq Require String.
From Verif Require LangText DescLexer Prop_LangText.
Import ListNotations.
Open Scope Z_scope.

Section P.
Context {Tok Src W E Inst R : Type}.
Variable c : config Tok Src W E Inst R.
Notation g := (cGrammar c).
Notation pstate := (pstate Tok Src W E Inst R).
Notation res := (res Tok Src W E Inst R).

(** *** LL(1) grammars *)
(** If a parse ends with an error, then the error is right: an unexpected token is the first one the input cannot be continued after,
    "unexpected end of input" is for the beginning of something valid, "remaining source" is for something valid with a token after
    it that cannot be there; and the token the error says is expected could have come instead. *)
Theorem syntax_error_right_partial lexed (fair : Src -> Prop) (view : Src -> list Tok) eoi fuel w t0 e s :
  predictiveGrammar c lexed -> exactNodes c lexed -> finishable c lexed -> calmHooks c ->
  willing c lexed fair view eoi -> unreadOf c view -> unreadFair c fair -> fair (fst w) ->
  (forall t, In t (view (fst w)) -> cType c t <> EoiTokenType) ->
  parseFrom c fuel w t0 = Fail e s ->
  rightError c lexed eoi (filter (core c) (view (fst w))) e.
Proof.
  intros PG EN FI CH WI UN UF FA NE PF. destruct (go_root _ (pg_ok _ _ PG)) as (rootN & RT).
  assert (UL : lexedL lexed (filter (core c) (view (fst w)))) by (intros t I; apply filter_In in I; apply (wi_lexed _ _ _ _ _ WI _ _ FA), I).
  assert (UE : forall x, In x (filter (core c) (view (fst w))) -> cType c x <> EoiTokenType) by (intros t I; apply filter_In in I; apply NE, I).
  pose proof (errors_right c lexed PG CH EN FI fair view eoi WI rootN RT _ UL UE UN UF fuel w t0 FA eq_refl) as X. rewrite PF in X. exact X.
Qed.

(** *** All grammars, all lexers, all hooks *)
Notation failed := ParserSpec.failed.
Definition noBad (ev : event Tok E Inst R) : bool := failed ev.
Lemma noBad_ok : forall ev, failed ev = false -> decideOk c ev -> noBad ev = false.
Proof. intros ev F _. exact F. Qed.
Definition foreign {A} (m : res A) : Prop := match m with Fail e _ => ~ ownErr e | _ => True end.
Lemma errs_foreign {A} (m : res A) : errs noBad False m -> foreign m.
Proof. destruct m; cbn; auto. intros (ev & r & _ & X & _). destruct ev; try discriminate X; injection X as <-; exact (fun x => x). Qed.
Lemma nb_any (l : list (event Tok E Inst R)) : nbl noBad False l.
Proof. intros []. Qed.

(** functions that do not touch the stack of nodes *)
Definition keeps {A} (s : pstate) (m : res A) : Prop := match m with Done _ s' | Fail _ s' | NoFuel s' => pStack s' = pStack s | Panic => True end.
Lemma keeps_bind {A B} (s : pstate) (m : res A) (k : A -> pstate -> res B) : keeps s m -> (forall a s', pStack s' = pStack s -> keeps s' (k a s')) -> keeps s (bind m k).
Proof. destruct m as [a s'|e s'| |s']; cbn; auto. intros H HK. specialize (HK a s' H). destruct (k a s'); cbn in *; congruence. Qed.
Lemma keeps_self {A} (s s' : pstate) (a : A) : pStack s' = pStack s -> keeps s (Done a s').
Proof. exact (fun x => x). Qed.
Lemma keeps_ret e (s s' : pstate) : pStack s' = pStack s -> keeps s (ret e s').
Proof. intros H. destruct e; exact H. Qed.
Lemma keeps_checkCtx s : keeps s (checkCtx c s).
Proof. unfold checkCtx. destruct (cCtx c (pWorld s)). apply keeps_ret. reflexivity. Qed.
Lemma keeps_handleToken t layer hooks s : keeps s (handleToken c t layer hooks s).
Proof.
  unfold handleToken. destruct t as [t|]; [|reflexivity]. apply keeps_bind; [apply keeps_checkCtx|]. intros _ s1 _.
  destruct (hookFor c hooks t) as [[hook|]|]; [|reflexivity|exact Logic.I].
  destruct (runHook c _ _ _ _) as [[tc w] [[emit extra] e]]. apply keeps_bind; [apply keeps_ret; reflexivity|]. intros. reflexivity.
Qed.
Lemma keeps_appendExtra layer : forall extra s, keeps s (appendExtra c layer extra s).
Proof. induction extra as [|t r IH]; intros s; cbn [appendExtra]; [reflexivity|]. destruct (isValidType c (cType c t)); cbn [negb]; [|reflexivity]. exact (IH (setQueue s layer (nth layer (pQueues s) [] ++ [t]))). Qed.
Lemma keeps_pullToken fuel types : forall hs layer s, keeps s (pullToken c fuel types hs layer s).
Proof.
  induction hs as [|hooks hs IH]; intros layer s; cbn [pullToken].
  - destruct (fetchToken c types _) as [src [t e]]. apply keeps_bind; [apply keeps_ret; reflexivity|]. intros. reflexivity.
  - destruct (nth layer (pQueues s) []); [|reflexivity].
    set (pull := pullToken c fuel types hs (S layer)) in *. assert (HP : forall s, keeps s (pull s)) by (intros; apply IH). clearbody pull.
    generalize fuel at 1. intros f. revert s. induction f as [|f IHf]; intros s; cbn [pullLoop]; [reflexivity|].
    apply keeps_bind; [apply HP|]. intros t s1 _. apply keeps_bind; [apply keeps_handleToken|]. intros [emit extra] s2 _.
    apply keeps_bind; [apply keeps_appendExtra|]. intros _ s3 _. destruct emit; [reflexivity|].
    destruct (nth layer (pQueues s3) []); [apply IHf|reflexivity].
Qed.
Lemma keeps_nextToken fuel types s : keeps s (nextToken c fuel types s).
Proof.
  unfold nextToken. destruct (pTokens s); [|reflexivity]. revert s. induction fuel as [|f IH]; intros s; cbn [nextLoop]; [reflexivity|].
  apply keeps_bind; [apply keeps_pullToken|]. intros t s1 _. destruct (_ && _); [reflexivity|apply IH].
Qed.
Lemma keeps_lookLoop : forall fuel t tokens k s, keeps s (lookLoop c fuel t tokens k s).
Proof.
  induction fuel as [|f IH]; intros t tokens k s; cbn [lookLoop]; [reflexivity|].
  destruct (lookRound c (S f) t 0 (kNext k) _ (pLost s)) as [[[k1 lost]|]|]; [|exact Logic.I|reflexivity].
  set (fin := fun s2 : pstate => match match kNext k1 with b :: _ => Some b | [] => match kSuccess k1 with Some b => Some b | None => kError k1 end end with
      | None => Panic | Some b => match nth_error (kStore k1) b with Some br => Done (tokens ++ [t], bRules br) s2 | None => Panic end end).
  assert (FIN : forall s2, keeps s2 (fin s2)).
  { intros s2. unfold fin. destruct (match kNext k1 with b :: _ => Some b | [] => _ end) as [b|]; [|exact Logic.I]. destruct (nth_error (kStore k1) b); [reflexivity|exact Logic.I]. }
  destruct (length (kNext k1) <=? 1)%nat; [exact (FIN (setLost s lost))|]. destruct (lookTypes (kStore k1) (kNext k1) =? 0); [exact (FIN (setLost s lost))|].
  pose proof (keeps_nextToken (S f) (lookTypes (kStore k1) (kNext k1)) (setLost s lost)) as H.
  destruct (nextToken c (S f) _ (setLost s lost)) as [t2 s2|e2 s2| |s2]; auto.
  - apply (keeps_bind s (Done t2 s2) (fun t2 s2 => lookLoop c f t2 (tokens ++ [t]) k1 s2)); auto.
  - apply (keeps_bind s (Done tt s2) (fun _ s2 => fin s2)); auto.
Qed.
Lemma keeps_nextRule fuel t st s : keeps s (nextRule c fuel t st s).
Proof.
  unfold nextRule. destruct (pApplied s) as [|r rest]; [|reflexivity].
  destruct (findRules _ _ _ _ t st) as [[|r1 [|r2 rs]]|]; [reflexivity|reflexivity| |exact Logic.I].
  unfold resolveConflict. destruct (pStack s) as [|n ns] eqn:ES; [exact Logic.I|].
  match goal with |- context[lookLoop c fuel t [] ?k s] => pose proof (keeps_lookLoop fuel t [] k s) as K; destruct (lookLoop c fuel t [] k s) as [[tokens rules] s1|e s1| |s1] end; cbn [bind keeps] in *; auto.
  destruct rules; [exact Logic.I|exact K].
Qed.

(** the error and the state of the node on the top of the stack *)
Definition topError (e : err Tok E) (s : pstate) : Prop :=
  match e with
  | UnexpectedToken t x | UnexpectedEoi t x =>
      exists n ns st d, pStack s = n :: ns /\ zget (gStates g) (nState n) = Some st /\ getExpectedToken c st = Some d /\ x = expectedText d /\
        ((exists y, e = UnexpectedEoi t y) <-> cType c t = EoiTokenType)
  | _ => True
  end.
Lemma foreign_top e s : ~ ownErr e -> topError e s.
Proof. destruct e; cbn; auto; intros X; destruct X; exact Logic.I. Qed.
Definition tops {A} (m : res A) : Prop := match m with Fail e s => topError e s | _ => True end.
Lemma tops_bind {A B} (m : res A) (k : A -> pstate -> res B) : foreign m -> (forall a s, m = Done a s -> tops (k a s)) -> tops (bind m k).
Proof. destruct m as [a s|e s| |s]; cbn; auto. intros X _. apply foreign_top, X. Qed.
Lemma tops_parseLoop : forall fuel used t s, tops (parseLoop c fuel used t s).
Proof.
  induction fuel as [|f IH]; intros used t s; cbn [parseLoop]; [exact Logic.I|].
  destruct (pStack s) as [|n ns] eqn:ES; [exact Logic.I|]. destruct used.
  - apply tops_bind; [apply errs_foreign, (errs_checkCtx c noBad False noBad_ok), nb_any|]. intros _ s1 _.
    apply tops_bind; [apply errs_foreign, (errs_nextToken c noBad False noBad_ok), nb_any|]. intros t2 s2 _. apply IH.
  - destruct (zget (gStates g) (nState n)) as [st|] eqn:G; [|exact Logic.I].
    assert (LK : (False -> gMultiRules g = []) \/ (forall ev, isStream ev = true -> failed ev = true -> noBad ev = false)) by (left; intros []).
    apply tops_bind; [apply errs_foreign, (errs_nextRule c noBad False noBad_ok LK), nb_any|]. intros [r|] s1 E1.
    + apply tops_bind; [apply errs_foreign, (errs_applyRule c noBad False noBad_ok), nb_any|]. intros u s2 _. apply IH.
    + assert (K1 : pStack s1 = n :: ns). { pose proof (keeps_nextRule f t st s) as K. rewrite E1 in K. cbn in K. congruence. }
      unfold syntaxError. apply tops_bind; [destruct t; [exact Logic.I|apply errs_foreign, (errs_nextToken c noBad False noBad_ok), nb_any]|]. intros t2 s2 E2.
      assert (K2 : pStack s2 = n :: ns). { destruct t as [t|]; [injection E2 as <- <-; exact K1|]. pose proof (keeps_nextToken f AllTokenTypes s1) as K. rewrite E2 in K. cbn in K. congruence. }
      destruct (getExpectedToken c st) as [d|] eqn:GE; [|exact Logic.I]. destruct t2 as [t2|]; [|exact Logic.I].
      cbn [tops]. destruct (Z.eqb_spec (cType c t2) EoiTokenType) as [X|X]; exists n, ns, st, d; repeat (split; [assumption || reflexivity|]); split; intros Y; [exact X|eauto|destruct Y as (y & Y); discriminate Y|destruct (X Y)].
Qed.
Lemma tops_restLoop : forall fuel s, tops (restLoop c fuel s).
Proof.
  induction fuel as [|f IH]; intros s; cbn [restLoop]; [exact Logic.I|].
  apply tops_bind; [apply errs_foreign, (errs_nextToken c noBad False noBad_ok), nb_any|]. intros [t|] s1 _; [|exact Logic.I].
  destruct (cType c t =? EoiTokenType); [exact Logic.I|]. destruct (isSideType g (cType c t)); [apply IH|]. exact Logic.I.
Qed.
Lemma tops_bind' {A B} (m : res A) (k : A -> pstate -> res B) : tops m -> (forall a s, tops (k a s)) -> tops (bind m k).
Proof. destruct m; cbn; auto. Qed.
Lemma tops_parseFrom fuel w t0 : tops (parseFrom c fuel w t0).
Proof.
  unfold parseFrom, start. apply tops_bind; [apply errs_foreign, (errs_pushNode c noBad False noBad_ok), nb_any|]. intros _ s _.
  unfold parse. apply tops_bind'; [apply tops_parseLoop|]. intros [used t] s1.
  destruct (if used then Some s1 else _) as [s2|]; [|exact Logic.I].
  apply tops_bind'; [destruct (_ && _); [apply tops_restLoop|exact Logic.I]|]. intros; exact Logic.I.
Qed.

Lemma hasRules_slice j st rules multi r : zget (gStates g) j = Some st -> stateOk g st rules multi -> In r rules -> ruleOf g j r.
Proof.
  intros G SO I. exists st, rules, multi, [r]. split; [exact G|]. split; [apply (so_rules _ _ _ _ SO)|]. split; [apply (so_multi _ _ _ _ SO)|]. split; [apply HR_one; auto|left; reflexivity].
Qed.
(** An error "unexpected token" or "unexpected end of input" is the latter exactly for the end of input.  If the state of the node
    being read has a rule for exactly one way to go on (that is not just multi-rules), then the token the error says is expected is one the
    state has a rule for. *)
Theorem expected_token_partial fuel w t0 e s t x : tablesOk g -> parseFrom c fuel w t0 = Fail e s -> e = UnexpectedToken t x \/ e = UnexpectedEoi t x ->
  (e = UnexpectedEoi t x <-> cType c t = EoiTokenType) /\
  exists n ns st, pStack s = n :: ns /\ zget (gStates g) (nState n) = Some st /\
    (sLow st < sHigh st -> exists r, ruleOf g (nState n) r /\ named c (rToken r) x).
Proof.
  intros TO PF EC. pose proof (tops_parseFrom fuel w t0) as X. rewrite PF in X. cbn [tops] in X.
  assert (Y : exists n ns st d, pStack s = n :: ns /\ zget (gStates g) (nState n) = Some st /\ getExpectedToken c st = Some d /\ x = expectedText d /\
      ((exists y, e = UnexpectedEoi t y) <-> cType c t = EoiTokenType)) by (destruct EC as [->| ->]; exact X).
  clear X. destruct Y as (n & ns & st & d & ES & G & GE & -> & EQ). split.
  { rewrite <- EQ. split; [intros ->; eauto|]. intros (y & ->). destruct EC as [EC|EC]; [discriminate EC|exact EC]. }
  exists n, ns, st. split; [exact ES|]. split; [exact G|]. intros LT. destruct TO as (_ & T2). destruct (T2 _ st G) as (rules & multi & SO & MT).
  assert (NM : forall k, zget (gTokens g) k = Some d -> named c k (expectedText d)) by (intros k K; exists d; split; [exact K|reflexivity]).
  pose proof (so_rules _ _ _ _ SO) as SR. pose proof (so_multi _ _ _ _ SO) as SM. unfold getExpectedToken in GE. pose proof LT as LB. apply Z.ltb_lt in LB. rewrite LB in GE.
  destruct (zslice_nth _ _ _ _ SR (sLow st) ltac:(lia)) as (r1 & G1 & I1). rewrite G1 in GE. cbn [obind] in GE.
  assert (IX : exists index, (if (rToken r1 <? 0) && (sLow st + 1 <? sHigh st) then do r <- zget (gRules g) (sLow st + 1); Some (rToken r) else Some (rToken r1)) = Some index /\
      exists r, In r rules /\ rToken r = index).
  { destruct ((rToken r1 <? 0) && (sLow st + 1 <? sHigh st)) eqn:B; [|eauto]. apply andb_true_iff in B as (_ & B). apply Z.ltb_lt in B.
    destruct (zslice_nth _ _ _ _ SR (sLow st + 1) ltac:(lia)) as (r2 & G2 & I2). rewrite G2. cbn [obind]. eauto. }
  destruct IX as (index & EI & r & IR & RI). rewrite EI in GE. cbn [obind] in GE.
  destruct (Z.ltb_spec (sLowMulti st) (sHighMulti st)) as [LM|LM].
  - destruct (zslice_nth _ _ _ _ SM (sLowMulti st) ltac:(lia)) as (m & GM & IM). rewrite GM in GE. cbn [obind] in GE. destruct (Z.ltb_spec (mToken m) index) as [LI|LI].
    + destruct (so_range _ _ _ _ SO m IM) as (rs & SRS & LRS). destruct rs as [|r0 rs]; [destruct (LRS eq_refl)|]. pose proof (MT m _ r0 IM SRS (or_introl eq_refl)) as TK.
      exists r0. split; [|rewrite TK; apply NM, GE]. exists st, rules, multi, (r0 :: rs). split; [exact G|]. split; [exact SR|]. split; [exact SM|]. split; [|left; reflexivity].
      eapply HR_many; [exact IM|congruence|exact SRS].
    + exists r. split; [eapply hasRules_slice; eassumption|rewrite RI; apply NM, GE].
  - exists r. split; [eapply hasRules_slice; eassumption|rewrite RI; apply NM, GE].
Qed.
End P.

(** "a {b} [c d]" (see ParserDemo.v) *)
Module Example1.
  Import Prop_Predict.Example1.
  Example exact_ok : exactNodes c lexed.
  Proof.
    constructor.
    - intros j r RU A. each RU; cbn in *; (discriminate || reflexivity).
    - intros j r nt t RU RD SN G LX TM. each RU; try (destruct SN; reflexivity). cbn [rNode] in G. vm_compute in G. injection G as <-. apply (MS_token _ 3 (mkRule 2 4 (-1))); [apply rule_is; cbn; auto 10|discriminate|reflexivity|exact TM].
  Qed.
  Example finish_ok : finishable c lexed.
  Proof.
    apply (finishable_checked c lexed (fun k => (0 <=? k) && (k <? 5))) with (fuel := 5%nat).
    - intros k B. apply andb_true_iff in B as (B1 & B2). apply Z.leb_le in B1. apply Z.ltb_lt in B2. exists (k, 0). split; [left; cbn; lia|]. apply matches. left. reflexivity.
    - apply (pg_ok _ _ predictive_ok).
    - vm_compute. reflexivity.
  Qed.
  Lemma right_ok input e s n : fair input -> parseFrom c n (input, 0) (0, 0) = Fail e s -> rightError c lexed dEoi (filter (core c) input) e.
  Proof.
    intros F P. apply (syntax_error_right_partial c lexed fair view dEoi n (input, 0) (0, 0) e s predictive_ok exact_ok finish_ok calm_ok willing_ok).
    - intros types src src' t _ _ _. reflexivity.
    - intros types src src' t FA H NI NF. assert (X : lexed t /\ fair src').
      { destruct src as [|x src]; revert H; unfold fetchToken; cbn [c Prop_ParserSafe.Example1.conf cLexers fetchLoop Prop_ParserSafe.Example1.kLexer].
        - intros H. injection H as <- <-. split; [right; reflexivity|intros y []].
        - destruct (_ && _); [destruct (Z.testbit types (fst x))|]; try discriminate. intros H. injection H as <- <-. split; [left; apply FA; left; reflexivity|]. intros y Y. apply FA. right. exact Y. }
      destruct X as ([X|X] & FS); [|exfalso; apply NI; rewrite X; reflexivity]. intros y [<-|Y]; [exact X|apply FS, Y].
    - exact F.
    - intros t I. cbn [fst view] in I. apply F in I. unfold EoiTokenType, Lexer.EoiTokenType. change (cType c t) with (fst t). lia.
    - exact P.
  Qed.
  Definition errorOf {A} (x : res dTok (list dTok) Z Z Z Z A) : option (err dTok Z) := match x with Fail e _ => Some e | _ => None end.
  (** "a space c b": "$d" is expected; "a space b c": it is expected, too; "a a": no token is expected *)
  Example unexpected : errorOf (parseFrom c 20 ([(0, 1); (4, 2); (2, 3); (1, 4)], 0) (0, 0)) = Some (UnexpectedToken (1, 4) [36; 100]).
  Proof. vm_compute. reflexivity. Qed.
  Example short : errorOf (parseFrom c 20 ([(0, 1); (4, 2); (1, 3); (2, 4)], 0) (0, 0)) = Some (UnexpectedEoi dEoi [36; 100]).
  Proof. vm_compute. reflexivity. Qed.
  Example more : errorOf (parseFrom c 20 ([(0, 1); (0, 2)], 0) (0, 0)) = Some (RemainingSource (0, 2)).
  Proof. vm_compute. reflexivity. Qed.
  (** so these errors are right *)
  Example unexpected_right : exists p u, [(0, 1); (2, 3); (1, 4)] = p ++ (1, 4) :: u /\ begins c lexed p /\ ~ begins c lexed (p ++ [(1, 4)]) /\ couldFollow c lexed p [36; 100].
  Proof.
    pose proof unexpected as X. destruct (parseFrom _ _ _ _) as [|e s| |] eqn:P; try discriminate X. injection X as ->.
    refine (right_ok _ _ _ _ _ P). intros t I. cbn in I. intuition subst; cbn; lia.
  Qed.
End Example1.

(** *** What is not so *)
(** root = ($b, $c) | ($b, $a); *)
Module Example2.
  Import String.
  Definition description : list Z := Eval vm_compute in (LangText.bytes "$a = /a/; $b = /b/; $c = /c/; root = ($b, $c) | ($b, $a);"%string).
  Definition g : grammar := Eval vm_compute in match DescLexer.parseBytes (fun _ => true) (fun _ _ => false) (fun x => x) 100 Prop_LangText.Example1.orders description with LangText.AGrammar g => g | _ => mkGrammar [] [] [] [] [] [] end.
  Definition c := Prop_ParserSafe.Example1.conf g [].
  Definition lexed (t : dTok) : Prop := 0 <= fst t < 3 \/ t = dEoi.
  Lemma cases j r : ruleOf g j r -> In (j, r) [(0, mkRule 1 1 (-1)); (0, mkRule 1 2 (-1)); (1, mkRule 2 (-1) (-1)); (2, mkRule 0 (-1) (-1))].
  Proof.
    intros (st & rules & multi & rs & G & SR & SM & HR & IR). pose proof (zget_Some_inv _ _ _ G) as R. change (zlen (gStates g)) with 3 in R.
    assert (C : j = 0 \/ j = 1 \/ j = 2) by lia. destruct C as [->|[->| ->]]; vm_compute in G; injection G as <-; vm_compute in SR; injection SR as <-; vm_compute in SM; injection SM as <-;
      inversion HR as [r0 I0 E0|m rs0 Im E1 E2 E3]; subst; cbn in *; intuition subst; cbn in *; try (vm_compute in E2; injection E2 as <-; cbn in IR); intuition subst; auto 10.
  Qed.
  Lemma matches (t : dTok) k : tokenMatches (cType c) (cText c) (cUpper c) g t k <-> k = fst t \/ k = AnyToken.
  Proof.
    assert (NL : forall i, ~ literalFor (cType c) (cText c) (cUpper c) g t i).
    { intros i [d _ _ ((d' & G & F & N) & _)]. pose proof (zget_Some_inv _ _ _ G) as R. change (zlen (gTokens g)) with 3 in R.
      assert (C : i = 0 \/ i = 1 \/ i = 2) by lia. destruct C as [->|[->| ->]]; vm_compute in G; injection G as <-; discriminate F. }
    split.
    - intros (keys & K & I). inversion K as [|t' N|t' i L NR|t' i L RS]; subst; [|destruct (NL i L)..]. destruct I as [I|[I|[]]]; auto.
    - intros I. exists [fst t; AnyToken]. split; [apply (K_type (cType c)), NL|]. cbn. destruct I; auto.
  Qed.
  Ltac each H := apply cases in H; cbn in H; let HA := fresh "HA" in let HB := fresh "HB" in destruct H as [H|[H|[H|[H|[]]]]]; pose proof (f_equal fst H) as HA; pose proof (f_equal snd H) as HB; clear H; cbn [fst snd] in HA, HB; try discriminate HA; try subst; try clear HA; try clear HB.
  Lemma starts ks j : run (Inst := Z) (R := Z) (cType c) (cText c) (cUpper c) g 0 ks j ->
    filter (core c) (leavesL ks) = [] \/ exists t u, filter (core c) (leavesL ks) = t :: u /\ fst t = 1.
  Proof.
    intros H. assert (X : (j = 0 /\ filter (core c) (leavesL ks) = []) \/ (j <> 0 /\ exists t u, filter (core c) (leavesL ks) = t :: u /\ fst t = 1)); [|tauto].
    remember 0 as i eqn:EI in H. induction H as [i|i ks j t RN IH SD|i ks j t r RN IH RU SN RD TM|i ks j r RN IH RU SN RA|i ks j r T RN IH RU SN D].
    - left. auto.
    - destruct SD as (t' & X & (d & G & F)). injection X as <-. exfalso. pose proof (zget_Some_inv _ _ _ G) as R. change (zlen (gTokens g)) with 3 in R.
      assert (C : fst t = 0 \/ fst t = 1 \/ fst t = 2) by (change (fst t) with (cType c t); lia). change (cType c t) with (fst t) in G. destruct C as [C|[C|C]]; rewrite C in G; injection G as <-; discriminate F.
    - specialize (IH EI). rewrite leavesL_snoc, filter_app. cbn [leaves]. apply matches in TM. destruct IH as [(-> & X)|(J & t' & u & X & Y)].
      + right. assert (TK : rToken r = 1 /\ rState r <> 0) by (each RU; cbn; lia).
        destruct TK as (TK & SN'). split; [exact SN'|]. rewrite X. exists t, []. assert (fst t = 1) as F1 by (unfold AnyToken in TM; lia). split; [|exact F1]. destruct t as (a, b). cbn in F1. subst a. reflexivity.
      + right. split; [|rewrite X; exists t', (u ++ filter (core c) [t]); split; [reflexivity|exact Y]]. each RU; cbn in *; lia.
    - exfalso. each RU; discriminate.
    - exfalso. each RU; apply SN; reflexivity.
  Qed.
  Lemma not_expected : ~ couldFollow c lexed [] [36; 97].
  Proof.
    intros (k & (d & G & N) & H). assert (k = 0) as ->.
    { pose proof (zget_Some_inv _ _ _ G) as R. change (zlen (gTokens (cGrammar c))) with 3 in R. assert (C : k = 0 \/ k = 1 \/ k = 2) by lia. destruct C as [->|[->| ->]]; [reflexivity|exfalso..]; vm_compute in G; injection G as <-; discriminate N. }
    destruct (H (0, 0)) as (v & T & D & _ & F); [left; cbn; lia|apply matches; left; reflexivity|].
    inversion D as [? nt t0 hooks results kids GN RN E1 E2]; subst. vm_compute in GN. injection GN as <-. cbn [gnFirst] in RN. rewrite leaves_node in F. destruct (starts _ _ RN) as [X|(t & u & X & Y)]; rewrite X in F; [discriminate F|]. injection F as -> _. discriminate Y.
  Qed.
  Lemma fails : exists s, parseFrom c 20 ([(2, 7)], 0) (0, 0) = Fail (UnexpectedToken (2, 7) [36; 97]) s.
  Proof. eexists. vm_compute. reflexivity. Qed.
End Example2.

(** A state that has only rules for more than one way to go on (multi-rules): what is said to be expected is the first type of the
    description.  Here "c" is an error, "$a" is said to be expected, but nothing begins with it. *)
Theorem expected_token_refuted : exists description (c : config dTok (list dTok) Z Z Z Z) lexed fuel t x s,
  DescLexer.parseBytes (fun _ => true) (fun _ _ => false) (cUpper c) 100 Prop_LangText.Example1.orders description = LangText.AGrammar (cGrammar c) /\
  lexed t /\ parseFrom c fuel ([t], 0) (0, 0) = Fail (UnexpectedToken t x) s /\ ~ couldFollow c lexed [] x.
Proof.
  destruct Example2.fails as (s & F). exists Example2.description, Example2.c, Example2.lexed, 20%nat, (2, 7), [36; 97], s. split; [vm_compute; reflexivity|]. split; [left; cbn; lia|]. split; [exact F|exact Example2.not_expected].
Qed.
Print Assumptions syntax_error_right_partial.
Print Assumptions expected_token_partial.
Print Assumptions expected_token_refuted.
