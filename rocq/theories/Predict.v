(** Proofs: valid input of a predictive grammar is accepted. *)
From Coq Require Import ZArith List Bool Lia Arith.
From Verif Require Import Base BaseProofs Grammar Rules RulesSpec Prop_Rules Parser ParserSpec ParserFlowSpec PredictSpec.
Import ListNotations.
Open Scope Z_scope.

Section P.
Context {Tok Src W E Inst R : Type}.
Variable c : config Tok Src W E Inst R.
Notation g := (cGrammar c).
Notation pstate := (pstate Tok Src W E Inst R).
Notation tree := (tree Tok Inst R).
Notation tokenMatches := (tokenMatches (cType c) (cText c) (cUpper c) g).
Notation core := (core c).
Notation known := (known c).
Notation ruleOf := (ruleOf g).

(** ** The machine with a stack *)
Fixpoint settle (S : list (Z * Z)) : list (Z * Z) :=
  match S with
  | (n, j) :: S' => if j =? FinalState then settle S' else S
  | [] => []
  end.
Inductive acc : list (Z * Z) -> list Tok -> Prop :=
| A_done : acc [] []
| A_token n j S r t u : ruleOf j r -> reads r -> rNode r = SameNode -> tokenMatches t (rToken r) ->
    acc (settle ((n, rState r) :: S)) u -> acc ((n, j) :: S) (t :: u)
| A_skip n j S r u : ruleOf j r -> rToken r = AnyToken -> rNode r = SameNode ->
    acc (settle ((n, rState r) :: S)) u -> acc ((n, j) :: S) u
| A_node n j S r nt t u : ruleOf j r -> reads r -> rNode r <> SameNode -> tokenMatches t (rToken r) -> zget (gNodes g) (rNode r) = Some nt ->
    acc ((rNode r, gnFirst nt) :: (n, rState r) :: S) (t :: u) -> acc ((n, j) :: S) (t :: u).

(** nodes of the stack were opened by rules of the nodes below *)
Inductive chained : list (Z * Z) -> Prop :=
| CH_root j : ofNode c RootNode j -> chained [(RootNode, j)]
| CH_open n j m i r S : ofNode c n j -> ofNode c m i -> ruleOf i r -> rNode r = n -> chained ((m, rState r) :: S) -> chained ((n, j) :: (m, rState r) :: S)
| CH_nil : chained [].

Lemma chained_settle S : chained S -> chained (settle S).
Proof.
  induction S as [|(n, j) S IH]; intros H; cbn [settle]; [exact H|]. destruct (Z.eqb_spec j FinalState); [|exact H]. apply IH. inversion H; subst; [constructor|assumption].
Qed.
Lemma chained_step n j S r : chained ((n, j) :: S) -> ruleOf j r -> chained ((n, rState r) :: S).
Proof.
  intros H X. inversion H; subst.
  - apply CH_root. econstructor; eassumption.
  - eapply CH_open; try eassumption; [econstructor; eassumption|reflexivity].
Qed.
Lemma chained_of n j S : chained ((n, j) :: S) -> ofNode c n j.
Proof. intros H. inversion H; subst; assumption. Qed.
Lemma chained_push n j S r nt : chained ((n, j) :: S) -> ruleOf j r -> zget (gNodes g) (rNode r) = Some nt -> chained ((rNode r, gnFirst nt) :: (n, rState r) :: S).
Proof.
  intros H X G. eapply CH_open; [apply ON_first, G|apply (chained_of _ _ _ H)|exact X|reflexivity|apply (chained_step _ _ _ _ H X)].
Qed.

(** the next token: the first of [u], or the end of input *)
Definition nextOf (u : list Tok) (t : Tok) : Prop :=
  match u with x :: _ => t = x | [] => cType c t = EoiTokenType end.

(** Lemma: the next token of an accepted string comes next *)
Lemma follow_settle S t : chained S -> (match settle S with [] => cType c t = EoiTokenType | (n, j) :: _ => comesNext c n j t end) ->
  match S with [] => cType c t = EoiTokenType | (n, j) :: _ => comesNext c n j t end.
Proof.
  induction S as [|(n, j) S IH]; intros C H; [exact H|]. cbn [settle] in H. destruct (Z.eqb_spec j FinalState) as [->|]; [|exact H].
  inversion C as [? O|? ? m i r ? O OM RU RN C'|]; subst.
  - cbn in H. apply CN_end, H.
  - specialize (IH C' H). cbn in IH. eapply CN_after; [exact OM|exact RU|reflexivity|exact IH].
Qed.
Lemma acc_next S u : acc S u -> chained S -> forall t, nextOf u t -> match S with [] => cType c t = EoiTokenType | (n, j) :: _ => comesNext c n j t end.
Proof.
  induction 1 as [|n j S r x u RU RD RN TM A IH|n j S r u RU RA RN A IH|n j S r nt x u RU RD RN TM G A IH]; intros C t N.
  - exact N.
  - cbn in N. subst x. eapply CN_here; eassumption.
  - pose proof (chained_step _ _ _ _ C RU) as C'. pose proof (follow_settle _ t C' (IH (chained_settle _ C') t N)) as X. cbn in X. eapply CN_skip; eassumption.
  - cbn in N. subst x. eapply CN_here; eassumption.
Qed.

(** ** Choice of rules *)
Variable lexed : Tok -> Prop.
Hypothesis LK : forall t, lexed t -> known t.
Hypothesis PR : predictive c lexed.
Hypothesis TO : tablesOk g.
Hypothesis GR : forall r, In r (gRules g) -> rState r = FinalState \/ exists st, zget (gStates g) (rState r) = Some st.

Lemma multi_nil st rules multi : stateOk g st rules multi -> multi = [].
Proof.
  intros SO. pose proof (so_multi _ _ _ _ SO) as X. rewrite (pr_multi _ _ PR) in X. unfold zslice in X. destruct ((0 <=? sLowMulti st) && (sLowMulti st <=? sHighMulti st) && (sHighMulti st <=? zlen (@nil multiRule))) eqn:B; [|discriminate].
  injection X as <-. rewrite skipn_nil, firstn_nil. reflexivity.
Qed.
Lemma ruleOf_in j st r rules multi : zget (gStates g) j = Some st -> stateOk g st rules multi -> (ruleOf j r <-> In r rules).
Proof.
  intros G SO. pose proof (multi_nil _ _ _ SO) as ->. split.
  - intros (st' & rules' & multi' & rs & G' & SR & SM & HR & IR). rewrite G in G'. injection G' as <-. rewrite (so_rules _ _ _ _ SO) in SR. injection SR as <-.
    rewrite (so_multi _ _ _ _ SO) in SM. injection SM as <-. inversion HR as [r0 I0 _|m rs0 Im _ _]; subst; [|destruct Im]. destruct IR as [<-|[]]. exact I0.
  - intros I. exists st, rules, [], [r]. split; [exact G|]. split; [apply SO|]. split; [apply SO|]. split; [apply HR_one; auto|left; reflexivity].
Qed.

Lemma keys_split t keys : known t -> keysOf (cType c) (cText c) (cUpper c) g (Some t) keys -> exists ks, keys = ks ++ [AnyToken] /\ ~ In AnyToken ks.
Proof.
  intros KN K. assert (NT : cType c t <> AnyToken). { unfold AnyToken. destruct KN as [(X & _)|[X|X]]; [lia|rewrite X; discriminate|rewrite X; discriminate]. }
  assert (NI : forall i, literalFor (cType c) (cText c) (cUpper c) g t i -> i <> AnyToken). { intros i [d T NL ((d' & G & _) & _)]. apply zget_Some_inv in G. unfold AnyToken. lia. }
  inversion K as [|t' N|t' i L NR|t' i L RS]; subst.
  - exists [cType c t]. split; [reflexivity|]. intros [X|[]]. congruence.
  - exists [i; cType c t]. split; [reflexivity|]. intros [X|[X|[]]]; [apply (NI i L X)|congruence].
  - exists [i]. split; [reflexivity|]. intros [X|[]]. apply (NI i L X).
Qed.
Lemma zget_range' {A} (l : list A) i : 0 <= i < zlen l -> exists x, zget l i = Some x.
Proof. intros H. destruct (zget l i) eqn:G; [eauto|]. destruct l as [|x0 l]; [unfold zlen in H; cbn in H; lia|]. rewrite (zget_Some _ _ x0) in G; [discriminate|exact H]. Qed.
Lemma keys_exist t : known t -> exists keys, keysOf (cType c) (cText c) (cUpper c) g (Some t) keys.
Proof.
  intros KN. destruct (keys_spec (cType c) (cText c) (cUpper c) g (Some t)) as (keys & _ & K); [|eauto]. intros tok X. injection X as <-.
  destruct KN as [(X & Y)|[X|X]]; [|left; rewrite X; reflexivity|left; rewrite X; reflexivity]. right. destruct Y as (d0 & G0 & _). eauto.
Qed.

Lemma rule_unique st rules multi a b : stateOk g st rules multi -> In a rules -> In b rules -> rToken a = rToken b -> a = b.
Proof. intros SO A B X. exact (sorted_inj rToken rules (so_sorted _ _ _ _ SO) a b A B X). Qed.
Lemma matches_keys t keys k : keysOf (cType c) (cText c) (cUpper c) g (Some t) keys -> (tokenMatches t k <-> In k keys).
Proof.
  intros K. split; [|intros I; exists keys; auto]. intros (keys' & K' & I). rewrite (keysOf_fun _ _ _ _ _ _ _ K K'). exact I.
Qed.
Lemma core_side t : core t = true -> ~ isSide (cType c) g (Some t).
Proof.
  intros C (t' & X & (d & G & F)). injection X as <-. unfold PredictSpec.core, sideToken in C. rewrite G, F in C. discriminate.
Qed.
Lemma known_lt t : known t -> cType c t < zlen (gTokens g).
Proof. intros [(_ & X)|[X|X]]; [destruct X as (d & G & _); apply zget_Some_inv in G; lia|rewrite X; unfold zlen; change EofTokenType with (-2); lia|rewrite X; unfold zlen; change EoiTokenType with (-3); lia]. Qed.
Lemma find_selected j st t : zget (gStates g) j = Some st -> known t -> core t = true -> exists rules ks rs,
  stateOk g st rules [] /\ keysOf (cType c) (cText c) (cUpper c) g (Some t) (ks ++ [AnyToken]) /\ ~ In AnyToken ks /\
  findRules (cType c) (cText c) (cUpper c) g (Some t) st = Some rs /\ selected g rules [] (ks ++ [AnyToken]) rs.
Proof.
  intros G KN CO. destruct TO as (_ & T2). destruct (T2 j st G) as (rules & multi & SO & _). pose proof (multi_nil _ _ _ SO) as ->.
  destruct (keys_exist t KN) as (keys & K). destruct (keys_split t keys KN K) as (ks & -> & NA).
  destruct (rule_lookup_priority (cType c) (cText c) (cUpper c) g st rules [] (Some t) (ks ++ [AnyToken]) SO (core_side t CO)) as (rs & F & S).
  { intros tok X. injection X as <-. apply known_lt, KN. } { exact K. }
  exists rules, ks, rs. auto.
Qed.
Lemma choose_rule j st t r : zget (gStates g) j = Some st -> lexed t -> core t = true -> ruleOf j r -> reads r -> tokenMatches t (rToken r) ->
  findRules (cType c) (cText c) (cUpper c) g (Some t) st = Some [r].
Proof.
  intros G LX CO RU RD TM. destruct (find_selected j st t G (LK t LX) CO) as (rules & ks & rs & SO & K & NA & F & S). rewrite F. f_equal.
  apply (ruleOf_in j st r rules [] G SO) in RU. apply (matches_keys t _ _ K) in TM. apply in_app_or in TM. destruct TM as [TM|[X|[]]]; [|unfold reads in RD; congruence].
  assert (O : forall r', In r' rules -> In (rToken r') ks -> r' = r).
  { intros r' I' IK. apply (pr_token _ _ PR j r' r t); [apply (ruleOf_in j st r' rules [] G SO), I'|apply (ruleOf_in j st r rules [] G SO), RU|intros X; apply NA; rewrite <- X; exact IK|exact RD|exact LX| |].
    - apply (matches_keys t _ _ K), in_or_app. left. exact IK.
    - apply (matches_keys t _ _ K), in_or_app. left. exact TM. }
  clear F K. remember (ks ++ [AnyToken]) as keys eqn:EK. revert ks EK NA TM O. induction S as [|key ks' rs H|key ks' rs N S IH]; intros ks EK NA TM O.
  - destruct ks; discriminate.
  - inversion H as [r0 I0 E0|m rs0 Im _ _]; subst; [|destruct Im]. destruct ks as [|k ks]; [destruct TM|]. cbn in EK. injection EK as EK _. f_equal. apply O; [exact I0|]. left. congruence.
  - destruct ks as [|k ks]; [destruct TM|]. cbn in EK. injection EK as -> ->. destruct TM as [->|TM]; [destruct (N [r]); apply HR_one; auto|].
    apply (IH ks); [reflexivity|intros X; apply NA; right; exact X|exact TM|]. intros r' I' IK. apply O; [exact I'|right; exact IK].
Qed.
Lemma choose_skip j st t r : zget (gStates g) j = Some st -> lexed t -> core t = true -> ruleOf j r -> rToken r = AnyToken ->
  (forall r', ruleOf j r' -> reads r' -> ~ tokenMatches t (rToken r')) ->
  findRules (cType c) (cText c) (cUpper c) g (Some t) st = Some [r].
Proof.
  intros G LX CO RU RA NM. destruct (find_selected j st t G (LK t LX) CO) as (rules & ks & rs & SO & K & NA & F & S). rewrite F. f_equal.
  apply (ruleOf_in j st r rules [] G SO) in RU.
  assert (O : forall r', In r' rules -> ~ In (rToken r') ks).
  { intros r' I' IK. apply (NM r'); [apply (ruleOf_in j st r' rules [] G SO), I'|intros X; apply NA; rewrite <- X; exact IK|]. apply (matches_keys t _ _ K), in_or_app. left. exact IK. }
  clear F K. remember (ks ++ [AnyToken]) as keys eqn:EK. revert ks EK NA O. induction S as [|key ks' rs H|key ks' rs N S IH]; intros ks EK NA O.
  - destruct ks; discriminate.
  - inversion H as [r0 I0 E0|m rs0 Im _ _]; subst; [|destruct Im]. destruct ks as [|k ks].
    + cbn in EK. injection EK as EK _. f_equal. apply (rule_unique st rules [] _ _ SO I0 RU). congruence.
    + cbn in EK. injection EK as EK _. destruct (O r0 I0). left. congruence.
  - destruct ks as [|k ks].
    + cbn in EK. injection EK as -> ->. destruct (N [r]). apply HR_one; auto.
    + cbn in EK. injection EK as -> ->. apply (IH ks); [reflexivity|intros X; apply NA; right; exact X|]. intros r' I' IK. apply (O r' I'). right. exact IK.
Qed.
Lemma choose_none j st r : zget (gStates g) j = Some st -> ruleOf j r -> rToken r = AnyToken -> findRules (cType c) (cText c) (cUpper c) g None st = Some [r].
Proof.
  intros G RU RA. destruct TO as (_ & T2). destruct (T2 j st G) as (rules & multi & SO & _). pose proof (multi_nil _ _ _ SO) as ->.
  destruct (rule_lookup_priority (cType c) (cText c) (cUpper c) g st rules [] None [AnyToken] SO) as (rs & F & S).
  { intros (t & X & _). discriminate. } { intros tok X. discriminate. } { constructor. }
  rewrite F. f_equal. apply (ruleOf_in j st r rules [] G SO) in RU. inversion S as [|key ks rs' H|key ks rs' N S']; subst.
  - inversion H as [r0 I0 E0|m rs0 Im _ _]; subst; [|destruct Im]. f_equal. apply (rule_unique st rules [] _ _ SO I0 RU). congruence.
  - destruct (N [r]). apply HR_one; auto.
Qed.
End P.
