(** Proofs: where syntax errors are found and what they say. *)
From Coq Require Import ZArith List Bool Lia Arith.
From Verif Require Import Base BaseProofs Grammar Rules RulesSpec Prop_Rules Parser ParserSpec ParserSafeSpec ParserFlowSpec ParserFuel ParserLook ParserWorld ParserEnd
  ParserSafe PredictSpec Predict PredictSim PredictRun PredictTree ExpectSpec.
Import ListNotations.
Open Scope Z_scope.

Section P.
Context {Tok Src W E Inst R : Type}.
Variable c : config Tok Src W E Inst R.
Notation g := (cGrammar c).
Notation pstate := (pstate Tok Src W E Inst R).
Notation core := (core c).
Notation ruleOf := (ruleOf g).
Notation tokenMatches := (tokenMatches (cType c) (cText c) (cUpper c) g).
Notation acc := (acc c).
Notation chained := (chained c).
Notation mayStart := (mayStart c).
Notation tree := (tree Tok Inst R).
Notation run := (run (Inst := Inst) (R := R) (cType c) (cText c) (cUpper c) g).
Notation derived := (derived (Inst := Inst) (R := R) (cType c) (cText c) (cUpper c) g).
Variable lexed : Tok -> Prop.

Hypothesis PG : predictiveGrammar c lexed.
Hypothesis CH : calmHooks c.
Hypothesis EN : exactNodes c lexed.
Hypothesis FI : finishable c lexed.
Variables (fair : Src -> Prop) (view : Src -> list Tok) (eoi : Tok).
Hypothesis WI : willing c lexed fair view eoi.
Let GO := pg_ok _ _ PG.
Let PR := pg_predictive _ _ PG.
Let CR := pg_core _ _ PG.
Let NR := pg_nodes _ _ PG.
Let TY := pg_types _ _ PG.
Let NE := ch_errors _ CH.
Let QH := ch_quiet _ CH.
Let NT := ch_tokens _ CH.
Let HT := ch_nodes _ CH.
Let TO : tablesOk g := go_tables _ GO.
Let LK := wi_known _ _ _ _ _ WI.

Definition lexedL (v : list Tok) : Prop := forall t, In t v -> lexed t.

(** ** Trees of what the machine accepts *)
Lemma run_app i a j : run i a j -> forall b k, run j b k -> run i (a ++ b) k.
Proof.
  intros RA b k RB. revert RA. induction RB as [j|j ks k t RN IH SD|j ks k t r RN IH RU SN RD TM|j ks k r RN IH RU SN RA0|j ks k r T RN IH RU SN D]; intros RA; rewrite ?app_nil_r, ?app_assoc.
  - exact RA.
  - apply R_side; auto.
  - eapply R_token; [apply IH, RA|..]; eassumption.
  - eapply R_skip; [apply IH, RA|..]; eassumption.
  - eapply R_node; [apply IH, RA|..]; eassumption.
Qed.
(** what is left to do for each node on the stack *)
Inductive parts : list (Z * Z) -> list Tok -> Prop :=
| PA_nil : parts [] []
| PA_cons n j S ks u : run j ks FinalState -> parts S u -> parts ((n, j) :: S) (leavesL ks ++ u).
Lemma parts_settle S u : parts (settle S) u -> parts S u.
Proof.
  induction S as [|(n, j) S IH]; intros H; [exact H|]. cbn [settle] in H. destruct (Z.eqb_spec j FinalState) as [->|]; [|exact H]. change u with (@leavesL Tok Inst R [] ++ u). constructor; [constructor|auto].
Qed.
Lemma acc_parts S u : acc S u -> parts S u.
Proof.
  induction 1 as [|n j S r x u RU RD RN TM A IH|n j S r u RU RA RN A IH|n j S r nt x u RU RD RN TM G A IH].
  - constructor.
  - apply parts_settle in IH. inversion IH as [|? ? ? ks v RK P]; subst. change (x :: leavesL ks ++ v) with ((@leaves Tok Inst R (Leaf x) ++ leavesL ks) ++ v).
    change (@leaves Tok Inst R (Leaf x) ++ leavesL ks) with (@leavesL Tok Inst R (Leaf x :: ks)). constructor; [|exact P].
    change (Leaf x :: ks) with ([] ++ [Leaf x] ++ ks). rewrite app_assoc. eapply run_app; [|exact RK]. eapply R_token; [apply R_start|..]; eassumption.
  - apply parts_settle in IH. inversion IH as [|? ? ? ks v RK P]; subst. constructor; [|exact P]. change ks with ([] ++ ks). eapply run_app; [|exact RK]. eapply R_skip; [apply R_start|..]; eassumption.
  - inversion IH as [|? ? ? ks v RK P E1 E2]; subst. inversion P as [|? ? ? ks2 v2 RK2 P2]; subst.
    set (T := Node (rNode r) (Some x) [] [] ks : tree).
    assert (LE : leavesL ks ++ leavesL ks2 ++ v2 = @leavesL Tok Inst R (T :: ks2) ++ v2). { unfold leavesL at 3. cbn [map concat]. fold (@leavesL Tok Inst R ks2). unfold T. rewrite leaves_node, app_assoc. reflexivity. }
    rewrite LE. constructor; [|exact P2]. change (T :: ks2) with ([] ++ [T] ++ ks2). rewrite app_assoc. eapply run_app; [|exact RK2]. eapply R_node; [apply R_start|exact RU|exact RN|]. unfold T. eapply D_node; eassumption.
Qed.
Lemma acc_core S u : acc S u -> lexedL u -> filter core u = u.
Proof.
  induction 1 as [|n j S r x u RU RD RN TM A IH|n j S r u RU RA RN A IH|n j S r nt x u RU RD RN TM G A IH]; intros L; auto.
  cbn. rewrite (CR j r x RU RD (L x (or_introl eq_refl)) TM). f_equal. apply IH. intros t I. apply L. right. exact I.
Qed.
Variable rootN : gnode.
Hypothesis RT : zget (gNodes g) RootNode = Some rootN.
Notation S0 := [(RootNode, gnFirst rootN)].
Lemma acc_whole u : acc S0 u -> lexedL u -> whole c lexed u.
Proof.
  intros A L. pose proof (acc_core _ _ A L) as CO. apply acc_parts in A. inversion A as [|? ? ? ks v RK P]; subst. inversion P; subst. rewrite app_nil_r in *.
  exists (Node RootNode None [] [] ks : tree). rewrite leaves_node. split; [eapply D_node; eassumption|]. split; [exact L|exact CO].
Qed.
Lemma first_live : gnFirst rootN <> FinalState.
Proof. destruct (go_first _ GO _ _ RT) as (st & G). intros X. rewrite X in G. discriminate. Qed.
Lemma whole_acc u : whole c lexed u -> acc S0 u /\ lexedL u.
Proof.
  intros (T & D & LX & LE). destruct (tree_acc c lexed CR NR T D LX) as (nt & G & A). rewrite RT in G. injection G as <-. rewrite LE in A. split.
  - cbn [settle] in A. pose proof first_live as X. apply Z.eqb_neq in X. rewrite X in A. exact A.
  - intros t I. apply LX. rewrite <- LE in I. apply filter_In in I. apply I.
Qed.

(** ** Finishing *)
Lemma filter_lexed l : lexedL l -> lexedL (filter core l).
Proof. intros L t I. apply filter_In in I. apply L, I. Qed.
Lemma lexedL_app a b : lexedL a -> lexedL b -> lexedL (a ++ b).
Proof. intros A B t I. apply in_app_or in I as [I|I]; auto. Qed.
Lemma finish S : chained S -> exists v, lexedL v /\ acc (settle S) v.
Proof.
  assert (ST : forall n j S u, ofNode c n j -> acc (settle S) u -> lexedL u -> exists v, lexedL v /\ acc (settle ((n, j) :: S)) v).
  { clear S. intros n j S u O A L. destruct (FI n j O) as (ks & RK & LX). exists (filter core (leavesL ks) ++ u). split; [apply lexedL_app; [exact (filter_lexed _ LX)|exact L]|].
    apply (run_acc c lexed CR NR); assumption. }
  induction 1 as [j O|n j m i r S O OM RU RN C IH|].
  - apply (ST _ _ [] []); [exact O|constructor|intros t []].
  - destruct IH as (v & L & A). eapply ST; eassumption.
  - exists []. split; [intros t []|constructor].
Qed.
Lemma settled_rule n j S r : ruleOf j r -> settle ((n, j) :: S) = (n, j) :: S.
Proof. apply settle_rule. Qed.
Lemma start_acc j t : mayStart j t -> lexed t -> forall n S, chained ((n, j) :: S) -> exists v, lexedL v /\ acc ((n, j) :: S) (t :: v).
Proof.
  induction 1 as [j r t RU RD RN TM|j r t RU RA M IH|j r nt t RU RD RN TM G M IH]; intros LX n S C.
  - destruct (finish ((n, rState r) :: S)) as (v & L & A); [eapply chained_step; eassumption|]. exists v. split; [exact L|]. eapply A_token; eassumption.
  - destruct (IH LX n S) as (v & L & A); [eapply chained_step; eassumption|]. exists v. split; [exact L|]. eapply A_skip; [exact RU|exact RA|apply (en_skip _ _ EN _ _ RU RA)|].
    assert (NF : rState r <> FinalState). { inversion M as [? r' ? RU' | ? r' ? RU' | ? r' ? ? RU']; subst; destruct (ruleOf_state c _ _ RU') as (? & _ & X); exact X. }
    cbn [settle]. apply Z.eqb_neq in NF. rewrite NF. exact A.
  - destruct (IH LX (rNode r) ((n, rState r) :: S)) as (v & L & A); [eapply chained_push; eassumption|]. exists v. split; [exact L|]. eapply A_node; eassumption.
Qed.
Lemma rule_acc n j S r t : chained ((n, j) :: S) -> ruleOf j r -> reads r -> lexed t -> tokenMatches t (rToken r) -> exists v, lexedL v /\ acc ((n, j) :: S) (t :: v).
Proof.
  intros C RU RD LX TM. apply start_acc; [|exact LX|exact C]. destruct (Z.eq_dec (rNode r) SameNode) as [SN|SN]; [eapply MS_token; eassumption|].
  destruct (ruleOf_known c GO _ _ RU) as (_ & [X|(nt & G)] & _); [contradiction|]. eapply MS_node; try eassumption. eapply (en_node _ _ EN); eassumption.
Qed.
(** a state has rules *)
Lemma has_rule n j : ofNode c n j -> j <> FinalState -> exists r, ruleOf j r /\ (rToken r = AnyToken \/ exists t, lexed t /\ reads r /\ tokenMatches t (rToken r)).
Proof.
  intros O NF. destruct (FI n j O) as (ks & RK & LX).
  assert (X : forall i ks k, run i ks k -> (forall t, In t (leavesL ks) -> lexed t) -> i <> k -> exists r, ruleOf i r /\ (rToken r = AnyToken \/ exists t, lexed t /\ reads r /\ tokenMatches t (rToken r))).
  { clear - CR NR. intros i ks k RK. induction RK as [i|i ks j t RN IH SD|i ks j t r RN IH RU SN RD TM|i ks j r RN IH RU SN RA|i ks j r T RN IH RU SN D]; intros LX NQ.
    - congruence.
    - apply IH; [|exact NQ]. intros x I. apply LX. rewrite leavesL_snoc. apply in_or_app. auto.
    - destruct (Z.eq_dec i j) as [->|N]; [|apply IH; [|exact N]; intros x I; apply LX; rewrite leavesL_snoc; apply in_or_app; auto].
      exists r. split; [exact RU|]. right. exists t. split; [apply LX; rewrite leavesL_snoc; apply in_or_app; right; left; reflexivity|]. auto.
    - destruct (Z.eq_dec i j) as [->|N]; [|apply IH; auto]. exists r. auto.
    - assert (LT : forall t, In t (leaves T) -> lexed t) by (intros x I; apply LX; rewrite leavesL_snoc; apply in_or_app; auto).
      destruct (Z.eq_dec i j) as [->|N]; [|apply IH; [|exact N]; intros x I; apply LX; rewrite leavesL_snoc; apply in_or_app; auto].
      pose proof (nr_some _ _ NR j r T RU SN D LT) as NS. destruct (filter core (leaves T)) as [|t v] eqn:F; [congruence|].
      destruct (nr_first _ _ NR j r T t v RU SN D LT F) as (r' & RU' & _ & _ & RD' & TM'). exists r'. split; [exact RU'|]. right. exists t. split; [|auto]. apply LT.
      assert (I : In t (filter core (leaves T))) by (rewrite F; left; reflexivity). apply filter_In in I. apply I. }
  exact (X _ _ _ RK LX NF).
Qed.

(** ** Choice of rules, for any token *)
Lemma find_cases j st t : zget (gStates g) j = Some st -> lexed t -> core t = true ->
  (exists r, ruleOf j r /\ reads r /\ tokenMatches t (rToken r) /\ findRules (cType c) (cText c) (cUpper c) g (Some t) st = Some [r]) \/
  (exists r, ruleOf j r /\ rToken r = AnyToken /\ (forall r', ruleOf j r' -> reads r' -> ~ tokenMatches t (rToken r')) /\ findRules (cType c) (cText c) (cUpper c) g (Some t) st = Some [r]) \/
  (findRules (cType c) (cText c) (cUpper c) g (Some t) st = Some [] /\ forall r, ruleOf j r -> reads r /\ ~ tokenMatches t (rToken r)).
Proof.
  intros G LX CO. destruct (find_selected c lexed PR TO j st t G (LK t LX) CO) as (rules & ks & rs & SO & K & NA & F & S).
  assert (RI : forall r, ruleOf j r <-> In r rules) by (intros r; apply (ruleOf_in c lexed PR j st r rules [] G SO)).
  assert (MK : forall k, tokenMatches t k <-> In k (ks ++ [AnyToken])) by (intros k; apply matches_keys, K). rewrite F. clear F K.
  assert (X : forall keys rs, selected g rules [] keys rs -> (exists r, rs = [r] /\ In r rules /\ exists a b, keys = a ++ rToken r :: b /\ forall r', In r' rules -> ~ In (rToken r') a) \/
    (rs = [] /\ forall r, In r rules -> ~ In (rToken r) keys)).
  { clear. induction 1 as [|key ks rs H|key ks rs N S IH].
    - right. split; [reflexivity|]. intros r _ [].
    - inversion H as [r0 I0 E0|m rs0 Im _ _]; subst; [|destruct Im]. left. exists r0. split; [reflexivity|]. split; [exact I0|]. exists [], ks. split; [reflexivity|]. intros r' _ [].
    - assert (NK : forall r, In r rules -> rToken r <> key) by (intros r I X; apply (N [r]); apply HR_one; auto).
      destruct IH as [(r & -> & I & a & b & -> & Q)|(-> & Q)].
      + left. exists r. split; [reflexivity|]. split; [exact I|]. exists (key :: a), b. split; [reflexivity|]. intros r' I' [X|X]; [apply (NK r' I'); congruence|apply (Q r' I' X)].
      + right. split; [reflexivity|]. intros r I [X|X]; [apply (NK r I); congruence|apply (Q r I X)]. }
  destruct (X _ _ S) as [(r & -> & I & a & b & EQ & Q)|(-> & Q)].
  - destruct (Z.eq_dec (rToken r) AnyToken) as [RA|RD].
    + right. left. exists r. split; [apply RI, I|]. split; [exact RA|]. split; [|reflexivity]. intros r' RU' RD' TM'. apply MK in TM'. apply (Q r'); [apply RI, RU'|].
      apply in_app_or in TM' as [TM'|[TM'|[]]]; [|unfold reads in RD'; congruence]. rewrite RA in EQ. clear - EQ NA TM'. revert a EQ. induction ks as [|k ks IH]; intros a EQ; [destruct TM'|].
      destruct a as [|x a]; cbn in EQ; injection EQ as -> EQ; [destruct NA; left; reflexivity|]. destruct TM' as [->|TM']; [left; reflexivity|right]. apply IH; auto. intros Y. apply NA. right. exact Y.
    + left. exists r. split; [apply RI, I|]. split; [exact RD|]. split; [|reflexivity]. apply MK. rewrite EQ. apply in_or_app. right. left. reflexivity.
  - right. right. split; [reflexivity|]. intros r RU. apply RI in RU. split; [|intros TM; apply MK in TM; exact (Q r RU TM)]. intros Y. apply (Q r RU). rewrite Y. apply in_or_app. right. left. reflexivity.
Qed.
Lemma find_none j st : zget (gStates g) j = Some st ->
  (exists r, ruleOf j r /\ rToken r = AnyToken /\ findRules (cType c) (cText c) (cUpper c) g None st = Some [r]) \/
  (findRules (cType c) (cText c) (cUpper c) g None st = Some [] /\ forall r, ruleOf j r -> reads r).
Proof.
  intros G. destruct TO as (_ & T2). destruct (T2 j st G) as (rules & multi & SO & _). pose proof (multi_nil c lexed PR _ _ _ SO) as ->.
  destruct (rule_lookup_priority (cType c) (cText c) (cUpper c) g st rules [] None [AnyToken] SO) as (rs & F & S).
  { intros (t & X & _). discriminate. } { intros tok X. discriminate. } { constructor. }
  rewrite F. assert (RI : forall r, ruleOf j r <-> In r rules) by (intros r; apply (ruleOf_in c lexed PR j st r rules [] G SO)).
  inversion S as [|key ks rs' H|key ks rs' N S']; subst.
  - inversion H as [r0 I0 E0|m rs0 Im _ _]; subst; [|destruct Im]. left. exists r0. split; [apply RI, I0|]. auto.
  - inversion S'; subst. right. split; [reflexivity|]. intros r RU X. apply RI in RU. apply (N [r]). apply HR_one; auto.
Qed.

(** ** The invariant *)
Variable U : list Tok.
Hypothesis UL : lexedL U.
Definition sameHead (u v : list Tok) : Prop := match u, v with [], [] => True | x :: _, y :: _ => x = y | _, _ => False end.
(** After the tokens [p], with [u] to come: whatever may come next in the grammar is what the stack is ready for, and the other way
    round; [o] is the token that is being looked at, nodes may have been opened for it. *)
Record Inv (p u : list Tok) (S : list (Z * Z)) (o : option Tok) : Prop := mkInv {
  iv_all : U = p ++ u;
  iv_chained : chained S;
  iv_settled : settle S = S;
  iv_to : forall v, lexedL v -> sameHead u v -> acc S0 (p ++ v) -> acc S v;
  iv_from : (forall v, acc S v -> acc S0 (p ++ v)) \/
    exists x u' n j S', o = Some x /\ u = x :: u' /\ S = (n, j) :: S' /\ mayStart j x /\ forall v, acc S (x :: v) -> acc S0 (p ++ x :: v)
}.
Lemma Inv_token p u S o : Inv p u S None -> Inv p u S o.
Proof. intros [A B C D F]. constructor; auto. destruct F as [F|(x & u' & n & j & S' & X & _)]; [auto|discriminate]. Qed.
Lemma settle_idem S : settle (settle S) = settle S.
Proof. induction S as [|(n, j) S IH]; [reflexivity|]. cbn [settle]. destruct (j =? FinalState) eqn:X; [exact IH|]. cbn [settle]. rewrite X. reflexivity. Qed.
Lemma live n j S : settle ((n, j) :: S) = (n, j) :: S -> j <> FinalState.
Proof.
  cbn [settle]. intros H X. rewrite X, Z.eqb_refl in H. assert (L : forall S : list (Z * Z), (length (settle S) <= length S)%nat). { clear. induction S as [|(n, j) S IH]; cbn [settle length]; [lia|]. destruct (_ =? _); cbn [length]; lia. }
  pose proof (L S) as Y. rewrite H in Y. cbn in Y. lia.
Qed.
(** no rule for the next token and no rule for any token *)
Definition stuck (j : Z) (u : list Tok) : Prop := forall r, ruleOf j r -> reads r /\ forall x u', u = x :: u' -> ~ tokenMatches x (rToken r).

Lemma no_more p u n j S o v : Inv p u ((n, j) :: S) o -> stuck j u -> lexedL v -> sameHead u v -> ~ acc S0 (p ++ v).
Proof.
  intros IV SK L SH A. apply (iv_to _ _ _ _ IV v L SH) in A. inversion A as [|? ? ? r x v' RU RD RN TM A'|? ? ? r ? RU RA RN A'|? ? ? r nt x v' RU RD RN TM G A']; subst.
  - destruct u as [|y u']; [destruct SH|]. cbn in SH. subst y. exact (proj2 (SK r RU) x u' eq_refl TM).
  - exact (proj1 (SK r RU) RA).
  - destruct u as [|y u']; [destruct SH|]. cbn in SH. subst y. exact (proj2 (SK r RU) x u' eq_refl TM).
Qed.
Lemma stuck_start j x u : stuck j (x :: u) -> ~ mayStart j x.
Proof.
  intros SK M. inversion M as [? r ? RU RD RN TM|? r ? RU RA M'|? r nt ? RU RD RN TM G M']; subst.
  - exact (proj2 (SK r RU) x u eq_refl TM).
  - exact (proj1 (SK r RU) RA).
  - exact (proj2 (SK r RU) x u eq_refl TM).
Qed.
Lemma stuck_from p u n j S o : Inv p u ((n, j) :: S) o -> stuck j u -> forall v, acc ((n, j) :: S) v -> acc S0 (p ++ v).
Proof.
  intros IV SK. destruct (iv_from _ _ _ _ IV) as [F|(x & u' & n' & j' & S' & _ & -> & X & M & _)]; [exact F|]. injection X as <- <- <-. destruct (stuck_start _ _ _ SK M).
Qed.

(** *** What the error names *)
Lemma zslice_nth {A} (l : list A) a b m : zslice l a b = Some m -> forall i, a <= i < b -> exists x, zget l i = Some x /\ In x m.
Proof.
  unfold zslice. destruct ((0 <=? a) && (a <=? b) && (b <=? zlen l)) eqn:EB; [|discriminate]. intros X. injection X as <-. apply andb_true_iff in EB as (EB & B3). apply andb_true_iff in EB as (B1 & B2). apply Z.leb_le in B1, B2, B3.
  intros i I. destruct (zget_range' l i) as (x & G); [lia|]. exists x. split; [exact G|]. unfold zget in G. destruct (Z.ltb_spec i 0); [lia|].
  apply (nth_error_In _ (Z.to_nat (i - a))). rewrite nth_error_firstn_lt by lia. rewrite nth_error_skipn_add. rewrite <- G. f_equal. lia.
Qed.
Lemma expected_rule j st r : zget (gStates g) j = Some st -> ruleOf j r -> exists r', ruleOf j r' /\ getExpectedToken c st = zget (gTokens g) (rToken r').
Proof.
  intros G RU. destruct TO as (_ & T2). destruct (T2 j st G) as (rules & multi & SO & _). pose proof (multi_nil c lexed PR _ _ _ SO) as ->.
  apply (ruleOf_in c lexed PR j st r rules [] G SO) in RU. pose proof (so_rules _ _ _ _ SO) as SR. pose proof (so_multi _ _ _ _ SO) as SM.
  assert (LT : sLow st < sHigh st).
  { unfold zslice in SR. destruct ((0 <=? sLow st) && (sLow st <=? sHigh st) && (sHigh st <=? zlen (gRules g))) eqn:EB; [|discriminate]. injection SR as <-.
    destruct (Z.lt_ge_cases (sLow st) (sHigh st)) as [X|X]; [exact X|]. replace (Z.to_nat (sHigh st - sLow st)) with 0%nat in RU by lia. destruct RU. }
  assert (LM : sLowMulti st <? sHighMulti st = false).
  { rewrite (pr_multi _ _ PR) in SM. unfold zslice in SM. destruct ((0 <=? sLowMulti st) && (sLowMulti st <=? sHighMulti st) && (sHighMulti st <=? zlen (@nil multiRule))) eqn:EB; [|discriminate].
    apply andb_true_iff in EB as (EB & B3). apply andb_true_iff in EB as (B1 & B2). apply Z.leb_le in B1, B2, B3. unfold zlen in B3. cbn in B3. apply Z.ltb_ge. lia. }
  unfold getExpectedToken. rewrite LM. pose proof LT as LT'. apply Z.ltb_lt in LT'. rewrite LT'.
  destruct (zslice_nth _ _ _ _ SR (sLow st) ltac:(lia)) as (r1 & G1 & I1). rewrite G1. cbn [obind]. destruct ((rToken r1 <? 0) && (sLow st + 1 <? sHigh st)) eqn:B.
  - apply andb_true_iff in B as (_ & B). apply Z.ltb_lt in B. destruct (zslice_nth _ _ _ _ SR (sLow st + 1) ltac:(lia)) as (r2 & G2 & I2). rewrite G2. cbn [obind].
    exists r2. split; [apply (ruleOf_in c lexed PR j st r2 rules [] G SO), I2|reflexivity].
  - exists r1. split; [apply (ruleOf_in c lexed PR j st r1 rules [] G SO), I1|reflexivity].
Qed.
Notation rightError := (rightError c lexed eoi U).
Lemma error_right p u n j S o st t f s : Inv p u ((n, j) :: S) o -> zget (gStates g) j = Some st -> stuck j u ->
  match u with x :: _ => t = x | [] => t = eoi end -> (forall x, In x u -> cType c x <> EoiTokenType) ->
  match syntaxError c f (Some t) st s with Fail e _ => rightError e | Done _ _ => False | _ => True end.
Proof.
  intros IV G SK HD NEO. unfold syntaxError. cbn [bind]. pose proof (stuck_from _ _ _ _ _ _ IV SK) as FR. pose proof (iv_all _ _ _ _ IV) as EU. pose proof (iv_chained _ _ _ _ IV) as C.
  assert (PL : lexedL p) by (intros y I; apply UL; rewrite EU; apply in_or_app; auto).
  pose proof (live _ _ _ (iv_settled _ _ _ _ IV)) as NF. pose proof (chained_of c _ _ _ C) as ON.
  assert (BP : begins c lexed p).
  { destruct (finish _ C) as (v & L & A). rewrite (iv_settled _ _ _ _ IV) in A. exists v. apply acc_whole; [apply FR, A|apply lexedL_app; assumption]. }
  destruct (has_rule n j ON NF) as (r0 & RU0 & _). destruct (expected_rule j st r0 G RU0) as (r & RU & EX). rewrite EX. destruct (zget (gTokens g) (rToken r)) as [d|] eqn:GD; [|exact I].
  assert (CF : couldFollow c lexed p (expectedText d)).
  { exists (rToken r). split; [exists d; split; [exact GD|reflexivity]|]. intros t' LX TM. destruct (rule_acc n j S r t' C RU (proj1 (SK r RU)) LX TM) as (v & L & A).
    exists v. rewrite <- app_assoc. apply acc_whole; [apply FR, A|]. apply lexedL_app; [exact PL|]. intros y [<-|I]; auto. }
  destruct u as [|x u'].
  - rewrite HD, (eoi_type c lexed fair view eoi WI), Z.eqb_refl. rewrite app_nil_r in EU. rewrite EU. split; [reflexivity|]. split; [exact BP|]. split; [|exact CF]. intros WH. apply whole_acc in WH as (A & L).
    apply (no_more p [] n j S o [] IV SK); [intros y []|exact Logic.I|]. rewrite app_nil_r. exact A.
  - subst t. pose proof (NEO x (or_introl eq_refl)) as NX. apply Z.eqb_neq in NX. rewrite NX. exists p, u'. split; [exact EU|]. split; [exact BP|]. split; [|exact CF].
    intros (v & WH). rewrite <- app_assoc in WH. apply whole_acc in WH as (A & L). apply (no_more p (x :: u') n j S o (x :: v) IV SK); [|reflexivity|exact A].
    intros y I. apply L. apply in_or_app. right. exact I.
Qed.

(** ** The loop *)
Notation sim := (sim c fair).
Notation left := (left view).
Notation todo := (todo c view).
Notation next := (next c lexed view eoi).
Notation feeds := (feeds c lexed view eoi).

Lemma next_any f types s : fair (srcOf s) -> match nextLoop c f types s with Done t s' => fair (srcOf s') /\ steady s s' /\ next types s t s' | NoFuel _ => True | _ => False end.
Proof.
  intros FA. destruct (next_ok c lexed NT fair view eoi WI types (length (left s)) s (Nat.le_refl _) FA) as (f1 & t & s' & NL & FA' & ST & NX).
  destruct (le_nextLoop c types f (Nat.max f f1) s (Nat.le_max_l _ _)) as [(s0 & ->)|X]; [exact Logic.I|].
  rewrite X, (next_more c f1 (Nat.max f f1) _ _ _ _ NL (Nat.le_max_r _ _)). auto.
Qed.
Lemma next_core f types s y l : fair (srcOf s) -> left s = y :: l -> core y = true -> match nextLoop c f types s with Done (Some t) _ => t = y | _ => True end.
Proof.
  intros FA LS CO. destruct f as [|f]; [exact Logic.I|]. cbn [nextLoop]. rewrite NT. cbn [pullToken]. change (fst (pWorld s)) with (srcOf s).
  destruct (wi_fair _ _ _ _ _ WI types (srcOf s) FA) as (src' & t & FE & FA'). rewrite FE. cbn [bind ret]. destruct t as [t|]; [|exact Logic.I].
  destruct (wi_source _ _ _ _ _ WI) as (_ & SO & _). destruct (SO _ _ _ _ FE) as [V|(V & _)].
  - change (view (srcOf s)) with (left s) in V. rewrite LS in V. injection V as <- _. rewrite <- sideToken_ok. unfold PredictSpec.core in CO. apply andb_true_iff in CO as (C1 & C2). rewrite C1, C2. reflexivity.
  - change (view (srcOf s)) with (left s) in V. rewrite LS in V. discriminate.
Qed.
Definition fetched (t : Tok) (s : pstate) : Prop := exists types src, fair src /\ fetchToken c types src = (srcOf s, (Some t, None)).
Lemma next_fetched types : forall f s, fair (srcOf s) -> match nextLoop c f types s with Done (Some t) s' => fetched t s' | _ => True end.
Proof.
  induction f as [|f IH]; intros s FA; [exact Logic.I|]. cbn [nextLoop]. rewrite NT. cbn [pullToken]. change (fst (pWorld s)) with (srcOf s).
  destruct (wi_fair _ _ _ _ _ WI types (srcOf s) FA) as (src' & t & FE & FA'). rewrite FE. cbn [bind ret]. destruct t as [t|].
  - destruct (_ && _); [exists types, (srcOf s); auto|]. apply IH. exact FA'.
  - cbn [negb andb orb]. exact Logic.I.
Qed.

Inductive cur (S : list (Z * Z)) (u : list Tok) (s : pstate) : bool -> option Tok -> Prop :=
| CU_used t : todo s = u -> cur S u s true t
| CU_token t : feeds u t s -> fetched t s -> cur S u s false (Some t)
| CU_side t : S <> [] -> sideToken c t = true -> lexed t -> todo s = u -> cur S u s false (Some t)
| CU_none : S <> [] -> todo s = u -> (forall n j S' st, S = (n, j) :: S' -> zget (gStates g) j = Some st -> ~ wanted c (sTypes st) (cType c (hd eoi (left s)))) -> cur S u s false None.
Hypothesis UE : forall x, In x U -> cType c x <> EoiTokenType.

Lemma live_state n j S s : sim ((n, j) :: S) s -> j <> FinalState -> exists st nr ns, pStack s = nr :: ns /\ zget (gStates g) (nState nr) = Some st /\ nTypes nr = sTypes st /\ zget (gStates g) j = Some st /\ pApplied s = [] /\ pTokens s = [].
Proof.
  intros SI NF. destruct (sim_top c fair _ _ _ _ SI) as (nr & ns & ST & SN & SJ). destruct SI as ((_ & T & _ & PT & PA) & _). rewrite ST in T. cbn in T. inversion T as [|? ? T1 _]; subst. cbn in T1.
  destruct (T1 NF) as (st & G & TT). exists st, nr, ns. auto 10.
Qed.
Definition post (r : res Tok Src W E Inst R (bool * option Tok)) : Prop :=
  match r with
  | Done (used, t) s => exists p u, Inv p u [] t /\ sim [] s /\ cur [] u s used t
  | Fail e _ => rightError e
  | _ => True
  end.
Definition pending (used : bool) (t : option Tok) : option Tok := if used then None else t.
Lemma u_todo s : fair (srcOf s) -> lexedL (todo s).
Proof. intros FA t I. unfold PredictRun.todo in I. apply filter_In in I as (I & _). apply (wi_lexed _ _ _ _ _ WI _ _ FA I). Qed.

Lemma loop_ok : forall f used t s p u S, Inv p u S (pending used t) -> sim S s -> cur S u s used t -> post (parseLoop c f used t s).
Proof.
  induction f as [|f IH]; intros used t s p u S IV SI CU; [exact Logic.I|]. cbn [parseLoop].
  destruct S as [|(n, j) S].
  { destruct SI as ((SH & X) & FA). destruct (pStack s) as [|nr ns] eqn:ST; [|discriminate]. cbn. exists p, u. split; [|split; [split; [split; rewrite ST; [reflexivity|exact X]|exact FA]|exact CU]].
    destruct IV as [A B C D F]. constructor; auto. destruct F as [F|(x & u' & n' & j' & S' & _ & _ & X' & _)]; [auto|discriminate]. }
  pose proof (live _ _ _ (iv_settled _ _ _ _ IV)) as NF. destruct (live_state _ _ _ _ SI NF) as (st & nr & ns & ST & G' & TT & G & PA & PT). rewrite ST.
  pose proof (iv_chained _ _ _ _ IV) as C. pose proof (iv_all _ _ _ _ IV) as EU.
  assert (UU : lexedL u) by (intros y I; apply UL; rewrite EU; apply in_or_app; auto).
  assert (UEu : forall x, In x u -> cType c x <> EoiTokenType) by (intros y I; apply UE; rewrite EU; apply in_or_app; auto).
  destruct used.
  { destruct (checkCtx_calm c NE QH s) as (s1 & -> & CM). cbn [bind]. pose proof (calm_sim c _ _ _ CM (proj1 SI)) as SI1. destruct CM as (CM & _).
    assert (FA1 : fair (srcOf s1)) by (rewrite CM; apply SI). unfold nextToken. destruct SI1 as (SI1 & SI2 & SI3 & PT1 & PA1). rewrite PT1. rewrite TT.
    pose proof (next_any f (sTypes st) s1 FA1) as NA. pose proof (next_fetched (sTypes st) f s1 FA1) as NFe. destruct (nextLoop c f (sTypes st) s1) as [t2 s2|e s2| |s2]; cbn [bind]; [|destruct NA|destruct NA|exact Logic.I].
    destruct NA as (FA2 & STE & NX). inversion CU as [t' TD| | |]; subst t'. assert (TD1 : todo s1 = u) by (unfold PredictRun.todo, PredictRun.left; rewrite CM; exact TD).
    apply (IH false t2 (log (EvNext t2) s2) p u ((n, j) :: S)); [apply Inv_token, IV| |].
    - split; [|exact FA2]. eapply steady_sim; [|split; [exact SI1|split; [exact SI2|split; [exact SI3|split; [exact PT1|exact PA1]]]]]. exact STE.
    - inversion NX as [x s3 CO KN TD' E1 E2|s3 TD' LE E1 E2|s3 TD' NW E1 E2|x s3 SD KN NEF PS TD' LL E1 E2]; subst t2 s3.
      + apply CU_token; [left; exists (todo s2); split; [congruence|auto]|exact NFe].
      + apply CU_token; [right; split; [congruence|]; split; [reflexivity|]; change (todo (log (EvNext (Some eoi)) s2)) with (todo s2); unfold PredictRun.todo; rewrite LE; reflexivity|exact NFe].
      + apply CU_none; [discriminate|change (todo (log (EvNext None) s2)) with (todo s2); congruence|]. intros n' j' S' st' X X'. injection X as <- <- <-. rewrite G in X'. injection X' as <-. exact NW.
      + apply CU_side; [discriminate|exact SD|exact KN|]. change (todo (log (EvNext (Some x)) s2)) with (todo s2). congruence. }
  rewrite G'. unfold nextRule. rewrite PA. cbn [pending] in IV. inversion CU as [|x FE FT|x _ SD KN TD|_ TD NW]; subst t.
  - (* a token *)
    destruct (feeds_ok c lexed fair view eoi WI _ _ _ FE) as (CO & LX & NX).
    assert (HDu : match u with y :: _ => x = y | [] => x = eoi end) by (destruct FE as [(u' & -> & _)|(-> & -> & _)]; reflexivity).
    destruct (find_cases j st x G LX CO) as [(r & RU & RD & TM & F)|[(r & RU & RA & NM & F)|(F & NM)]]; rewrite F; cbn [bind].
    + assert (UX : exists u', u = x :: u' /\ todo s = u').
      { destruct FE as [(u' & -> & _ & _ & TD)|(-> & -> & TD)]; [eauto|]. exfalso. pose proof (pg_endless _ _ PG j r RU) as PE. pose proof (eoi_type c lexed fair view eoi WI) as ET.
        destruct TM as (keys & K & I). inversion K as [|t' N|t' i L NRs|t' i L RS]; subst; [|destruct L as [d GT _ _]; rewrite ET in GT; discriminate..]. rewrite ET in I. destruct I as [I|[I|[]]]; [congruence|]. unfold reads in RD. congruence. }
      destruct UX as (u' & -> & TD). pose proof RD as RDb. unfold reads in RDb. apply Z.eqb_neq in RDb.
      (* what acceptance means here *)
      assert (INV : forall v, lexedL v -> acc ((n, j) :: S) (x :: v) -> (rNode r = SameNode /\ acc (settle ((n, rState r) :: S)) v) \/
        (exists nt, rNode r <> SameNode /\ zget (gNodes g) (rNode r) = Some nt /\ acc ((rNode r, gnFirst nt) :: (n, rState r) :: S) (x :: v))).
      { intros v LV A. inversion A as [|? ? ? r' y v' RU' RD' RN' TM' A'|? ? ? r' ? RU' RA' RN' A'|? ? ? r' nt y v' RU' RD' RN' TM' GN' A']; subst.
        - pose proof (choose_rule c lexed LK PR TO j st x r' G LX CO RU' RD' TM') as CHO. rewrite F in CHO. injection CHO as <-. auto.
        - exfalso. pose proof (chained_step c _ _ _ _ C RU') as CH1. pose proof (chained_settle c _ CH1) as CH'.
          pose proof (follow_settle c _ x CH1 (acc_next c _ _ A' CH' x eq_refl)) as CN. cbn in CN. exact (pr_skip _ _ PR n j r' r x (chained_of c _ _ _ C) RU' RA' RU RD LX TM CN).
        - pose proof (choose_rule c lexed LK PR TO j st x r' G LX CO RU' RD' TM') as CHO. rewrite F in CHO. injection CHO as <-. right. eauto. }
      assert (FR : forall v, acc ((n, j) :: S) (x :: v) -> acc S0 (p ++ x :: v)).
      { destruct (iv_from _ _ _ _ IV) as [Q|(y & u2 & n2 & j2 & S2 & _ & X & _ & _ & Q)]; [auto|]. injection X as <- <-. exact Q. }
      destruct (Z.eq_dec (rNode r) SameNode) as [SN|SN].
      * destruct (same_sim c GO NE QH fair _ _ _ _ (Some x) _ SI RU SN) as (s1 & AR & SI1 & SR). rewrite AR. cbn [bind]. rewrite RDb. cbn [negb orb].
        apply (IH true (Some x) s1 (p ++ [x]) u' (settle ((n, rState r) :: S))); [|exact SI1|apply CU_used; unfold PredictRun.todo, PredictRun.left; rewrite SR; exact TD].
        constructor; [rewrite <- app_assoc; exact EU|apply chained_settle, (chained_step c _ _ _ _ C RU)|apply settle_idem| |].
        { intros v LV SH A. rewrite <- app_assoc in A. cbn [app] in A. apply (iv_to _ _ _ _ IV (x :: v)) in A; [|intros y [<-|I]; auto|reflexivity]. destruct (INV v LV A) as [(_ & Q)|(nt & Q & _)]; [exact Q|contradiction]. }
        { left. intros v A. rewrite <- app_assoc. apply FR. eapply A_token; eassumption. }
      * destruct (ruleOf_known c GO _ _ RU) as (_ & [X|(nt & GN)] & _); [contradiction|]. destruct (node_sim c GO NE QH HT fair _ _ _ _ _ x _ SI RU SN GN) as (s1 & AR & SI1 & SR). rewrite AR. cbn [bind].
        pose proof (en_node _ _ EN j r nt x RU RD SN GN LX TM) as MS.
        assert (SE : settle ((rNode r, gnFirst nt) :: (n, rState r) :: S) = (rNode r, gnFirst nt) :: (n, rState r) :: S).
        { cbn [settle]. destruct (Z.eqb_spec (gnFirst nt) FinalState) as [X|X]; [|reflexivity]. destruct (go_first _ GO _ _ GN) as (st' & GS). rewrite X in GS. discriminate. }
        apply (IH false (Some x) s1 p (x :: u') ((rNode r, gnFirst nt) :: (n, rState r) :: S)); [|exact SI1|].
        { constructor; [exact EU|apply (chained_push c _ _ _ _ _ C RU GN)|exact SE| |].
          - intros v LV SH A. destruct v as [|y v]; [destruct SH|]. cbn in SH. subst y. apply (iv_to _ _ _ _ IV) in A; [|exact LV|reflexivity].
            destruct (INV v (fun t I => LV t (or_intror I)) A) as [(Q & _)|(nt' & _ & GN' & Q)]; [contradiction|]. rewrite GN in GN'. injection GN' as <-. exact Q.
          - right. exists x, u', (rNode r), (gnFirst nt), ((n, rState r) :: S). split; [reflexivity|]. split; [reflexivity|]. split; [reflexivity|]. split; [exact MS|]. intros v A. apply FR. eapply A_node; eassumption. }
        { apply CU_token; [eapply feeds_src; [exact SR|exact FE]|]. destruct FT as (types & src & FS & FE'). exists types, src. rewrite SR. auto. }
    + pose proof (en_skip _ _ EN j r RU RA) as SN. destruct (same_sim c GO NE QH fair _ _ _ _ (Some x) _ SI RU SN) as (s1 & AR & SI1 & SR). rewrite AR. cbn [bind]. rewrite RA, Z.eqb_refl. cbn [negb orb].
      apply (IH false (Some x) s1 p u (settle ((n, rState r) :: S))); [|exact SI1|apply CU_token; [eapply feeds_src; [exact SR|exact FE]|destruct FT as (types & src & FS & FE'); exists types, src; rewrite SR; auto]].
      constructor; [exact EU|apply chained_settle, (chained_step c _ _ _ _ C RU)|apply settle_idem| |].
      * intros v LV SH A. apply (iv_to _ _ _ _ IV v LV SH) in A.
        inversion A as [|? ? ? r' y v' RU' RD' RN' TM' A'|? ? ? r' ? RU' RA' RN' A'|? ? ? r' nt y v' RU' RD' RN' TM' GN' A']; subst.
        { destruct u as [|z u2]; [destruct SH|]. cbn in SH, HDu. subst z. subst y. destruct (NM r' RU' RD' TM'). }
        { pose proof (choose_skip c lexed LK PR TO j st x r' G LX CO RU' RA' NM) as CHO. rewrite F in CHO. injection CHO as <-. exact A'. }
        { destruct u as [|z u2]; [destruct SH|]. cbn in SH, HDu. subst z. subst y. destruct (NM r' RU' RD' TM'). }
      * destruct (iv_from _ _ _ _ IV) as [Q|(y & u2 & n2 & j2 & S2 & X1 & -> & X2 & MS & Q)]; [left; intros v A; apply Q; eapply A_skip; eassumption|].
        injection X1 as <-. injection X2 as <- <- <-. inversion MS as [? r' ? RU' RD' RN' TM'|? r' ? RU' RA' M'|? r' nt ? RU' RD' RN' TM' G2 M']; subst.
        { destruct (NM r' RU' RD' TM'). }
        { pose proof (choose_skip c lexed LK PR TO j st x r' G LX CO RU' RA' NM) as CHO. rewrite F in CHO. injection CHO as <-.
          assert (SE : settle ((n, rState r) :: S) = (n, rState r) :: S). { inversion M' as [? r'' ? RU''|? r'' ? RU''|? r'' ? ? RU'']; subst; apply (settle_rule c _ _ _ _ RU''). }
          right. exists x, u2, n, (rState r), S. split; [reflexivity|]. split; [reflexivity|]. split; [exact SE|]. split; [exact M'|]. intros v A. apply Q. eapply A_skip; eassumption. }
        { destruct (NM r' RU' RD' TM'). }
    + assert (SK : stuck j u). { intros r RU. destruct (NM r RU) as (RD & NT'). split; [exact RD|]. intros y u' ->. cbn in HDu. subst y. exact NT'. }
      pose proof (error_right p u n j S (Some x) st x f s IV G SK HDu UEu) as ER. destruct (syntaxError c f (Some x) st s); try exact Logic.I; [destruct ER|exact ER].
  - (* a side token *)
    assert (IS : isSide (cType c) g (Some x)). { exists x. split; [reflexivity|]. apply isSideType_spec. rewrite <- sideToken_ok. exact SD. }
    assert (NA : cType c x <> AnyToken). { unfold AnyToken. destruct (LK _ KN) as [(X & _)|[X|X]]; [lia|rewrite X; discriminate|rewrite X; discriminate]. }
    rewrite (side_token_rule (cType c) (cText c) (cUpper c) g st x IS). cbn [bind]. destruct (side_sim c NE QH fair _ _ _ x _ _ SI NF NA) as (s3 & AR & SI3 & SR). rewrite AR. cbn [bind].
    assert (NC : core x = false) by (apply side_core, SD).
    apply (IH true (Some x) s3 p u ((n, j) :: S)); [|exact SI3|apply CU_used; unfold PredictRun.todo, PredictRun.left; rewrite SR; exact TD].
    destruct IV as [A1 A2 A3 A4 A5]. constructor; auto. destruct A5 as [A5|(y & u2 & n2 & j2 & S2 & X1 & X2 & _)]; [auto|]. injection X1 as <-. exfalso.
    assert (IT : In x (todo s)) by (rewrite TD, X2; left; reflexivity). unfold PredictRun.todo in IT. apply filter_In in IT as (_ & IT). congruence.
  - (* no token of the wanted types *)
    assert (NWj : ~ wanted c (sTypes st) (cType c (hd eoi (left s)))) by (eapply NW; [reflexivity|exact G]). clear NW.
    assert (NM : forall r, ruleOf j r -> reads r -> forall x u', u = x :: u' -> ~ tokenMatches x (rToken r)).
    { intros r RU RD x u' X TM. apply NWj. eapply (wanted_next c lexed TY fair view eoi WI j st r x u' s); try eassumption; [congruence|apply SI]. }
    assert (FRM : forall v, acc ((n, j) :: S) v -> acc S0 (p ++ v)). { destruct (iv_from _ _ _ _ IV) as [Q|(y & u2 & n2 & j2 & S2 & X & _)]; [exact Q|discriminate]. }
    destruct (find_none j st G) as [(r & RU & RA & F)|(F & AR)]; rewrite F; cbn [bind].
    + pose proof (en_skip _ _ EN j r RU RA) as SN. destruct (same_sim c GO NE QH fair _ _ _ _ None _ SI RU SN) as (s1 & AP & SI1 & SR). rewrite AP. cbn [bind]. rewrite orb_true_r.
      apply (IH true None s1 p u (settle ((n, rState r) :: S))); [|exact SI1|apply CU_used; unfold PredictRun.todo, PredictRun.left; rewrite SR; exact TD].
      constructor; [exact EU|apply chained_settle, (chained_step c _ _ _ _ C RU)|apply settle_idem| |].
      * intros v LV SH A. apply (iv_to _ _ _ _ IV v LV SH) in A.
        inversion A as [|? ? ? r' y v' RU' RD' RN' TM' A'|? ? ? r' ? RU' RA' RN' A'|? ? ? r' nt y v' RU' RD' RN' TM' GN' A']; subst v.
        { destruct u as [|z u2]; [destruct SH|]. cbn in SH. subst z. destruct (NM r' RU' RD' y u2 eq_refl TM'). }
        { pose proof (choose_none c lexed PR TO j st r' G RU' RA') as CHO. rewrite F in CHO. injection CHO as <-. exact A'. }
        { destruct u as [|z u2]; [destruct SH|]. cbn in SH. subst z. destruct (NM r' RU' RD' y u2 eq_refl TM'). }
      * left. intros v A. apply FRM. eapply A_skip; eassumption.
    + assert (SK : stuck j u) by (intros r RU; split; [apply AR, RU|apply NM; [exact RU|apply AR, RU]]).
      destruct (has_rule n j (chained_of c _ _ _ C) NF) as (r & RU & [RA|(t & LX & RD & TM)]); [destruct (AR r RU RA)|].
      destruct (TY j st r t G RU RD LX TM) as (_ & TYs). pose proof (proj2 SI) as FA.
      unfold syntaxError, nextToken. rewrite PT. pose proof (next_any f AllTokenTypes s FA) as NA. pose proof (next_core f AllTokenTypes s) as NC. destruct (nextLoop c f AllTokenTypes s) as [t2 s2|e s2| |s2]; cbn [bind]; [|destruct NA|destruct NA|exact Logic.I].
      destruct NA as (FA2 & _ & NX).
      assert (HDL : left s = [] \/ exists y l, left s = y :: l /\ core y = true).
      { destruct (left s) as [|y l] eqn:LS; [auto|]. right. exists y, l. split; [reflexivity|]. destruct (core y) eqn:CO; [reflexivity|]. destruct NWj. cbn [hd]. apply TYs; [|exact CO].
        apply (wi_lexed _ _ _ _ _ WI (srcOf s) _ FA). change (view (srcOf s)) with (left s). rewrite LS. left. reflexivity. }
      assert (AW : forall x, known c x -> wanted c AllTokenTypes (cType c x)) by (intros x; apply (all_wanted c lexed fair view eoi WI)).
      assert (T2 : exists x, t2 = Some x /\ match u with y :: _ => x = y | [] => x = eoi end).
      { destruct HDL as [LS|(y & l & LS & CO)].
        - assert (u = []) as -> by (rewrite <- TD; unfold PredictRun.todo; rewrite LS; reflexivity).
          inversion NX as [x s3 CO KN TD' E1 E2|s3 TD' LE E1 E2|s3 TD' NW' E1 E2|x s3 SD KN NEF PS TD' LL E1 E2]; subst t2 s3.
          + congruence.
          + exists eoi. split; reflexivity.
          + exfalso. apply NW', AW. destruct (left s2) as [|y l] eqn:L2; cbn [hd]; [right; right; apply (eoi_type c lexed fair view eoi WI)|]. apply LK, (wi_lexed _ _ _ _ _ WI (srcOf s2) _ FA2). change (view (srcOf s2)) with (left s2). rewrite L2. left. reflexivity.
          + rewrite LS in LL. cbn in LL. lia.
        - assert (UX : exists u', u = y :: u') by (rewrite <- TD; unfold PredictRun.todo; rewrite LS; cbn [filter]; rewrite CO; eauto). destruct UX as (u' & ->).
          destruct t2 as [x|]; [exists x; split; [reflexivity|exact (NC y l FA LS CO)]|]. exfalso. inversion NX as [|s3 TD' LE E1 E2|s3 TD' NW' E1 E2|]; subst s3. apply NW', AW.
          destruct (left s2) as [|z l2] eqn:L2; cbn [hd]; [right; right; apply (eoi_type c lexed fair view eoi WI)|]. apply LK, (wi_lexed _ _ _ _ _ WI (srcOf s2) _ FA2). change (view (srcOf s2)) with (left s2). rewrite L2. left. reflexivity. }
      destruct T2 as (x & -> & HDu). pose proof (error_right p u n j S None st x f s2 IV G SK HDu UEu) as ER. unfold syntaxError in ER. cbn [bind] in ER.
      destruct (getExpectedToken c st); [exact ER|exact Logic.I].
Qed.

(** ** The whole parse *)
Lemma rest_fail : forall f s, fair (srcOf s) -> pTokens s = [] -> match restLoop c f s with Fail e _ => exists t u, e = RemainingSource t /\ todo s = t :: u | _ => True end.
Proof.
  induction f as [|f IH]; intros s FA PT; [exact Logic.I|]. cbn [restLoop]. unfold nextToken. rewrite PT. pose proof (next_any f AllTokenTypes s FA) as NA.
  destruct (nextLoop c f AllTokenTypes s) as [t2 s2|e s2| |s2]; cbn [bind]; [|destruct NA|destruct NA|exact Logic.I]. destruct NA as (FA2 & (ST & PT2 & _) & NX). destruct t2 as [x|]; [|exact Logic.I].
  inversion NX as [x' s3 CO KN TD' E1 E2|s3 TD' LE E1 E2|s3 TD' NW' E1 E2|x' s3 SD KN NEF PS TD' LL E1 E2]; subst s3.
  - subst x'. destruct (Z.eqb_spec (cType c x) EoiTokenType); [exact Logic.I|]. unfold PredictSpec.core in CO. apply andb_true_iff in CO as (CO & _). apply negb_true_iff in CO. rewrite <- sideToken_ok, CO.
    exists x, (todo s2). auto.
  - subst x. rewrite (eoi_type c lexed fair view eoi WI). exact Logic.I.
  - subst x'. destruct (_ =? _); [exact Logic.I|]. rewrite <- sideToken_ok, SD. specialize (IH (log (EvRest x) s2) FA2). cbn [pTokens log] in IH. rewrite PT2 in IH. specialize (IH PT).
    destruct (restLoop c f (log (EvRest x) s2)); auto. change (todo (log (EvRest x) s2)) with (todo s2) in IH. rewrite TD' in IH. exact IH.
Qed.
Hypothesis UN : unreadOf c view.
Hypothesis UF : unreadFair c fair.
Lemma rest_right p u : Inv p u [] None \/ (exists o, Inv p u [] o) -> forall t u', u = t :: u' -> rightError (RemainingSource t).
Proof.
  intros IV t u' ->. assert (X : exists o, Inv p (t :: u') [] o) by (destruct IV as [IV|IV]; eauto). clear IV. destruct X as (o & IV). pose proof (iv_all _ _ _ _ IV) as EU.
  assert (PL : lexedL p) by (intros y I; apply UL; rewrite EU; apply in_or_app; auto).
  exists p, u'. split; [exact EU|]. split.
  - destruct (iv_from _ _ _ _ IV) as [F|(x & u2 & n & j & S' & _ & _ & X & _)]; [|discriminate]. apply acc_whole; [|exact PL]. rewrite <- (app_nil_r p). apply F. constructor.
  - intros (v & WH). rewrite <- app_assoc in WH. apply whole_acc in WH as (A & L). apply (iv_to _ _ _ _ IV (t :: v)) in A; [|intros y I; apply L, in_or_app; right; exact I|reflexivity]. inversion A.
Qed.
Lemma errors_right fuel w t0 : fair (fst w) -> U = filter core (view (fst w)) -> match parseFrom c fuel w t0 with Fail e _ => rightError e | _ => True end.
Proof.
  intros FA EU. destruct (start_ok c GO NE QH HT fair w t0 rootN RT FA) as (s & ST & SI & SR). unfold parseFrom. rewrite ST. cbn [bind]. unfold parse.
  assert (IV : Inv [] U S0 None).
  { constructor; [reflexivity|apply CH_root, ON_first, RT| |intros v _ _ A; exact A|left; intros v A; exact A]. cbn [settle]. pose proof first_live as X. apply Z.eqb_neq in X. rewrite X. reflexivity. }
  assert (CU : cur S0 U s true None). { apply CU_used. unfold PredictRun.todo, PredictRun.left. rewrite SR. symmetry. exact EU. }
  pose proof (loop_ok fuel true None s [] U S0 IV SI CU) as P. destruct (parseLoop c fuel true None s) as [(used, t) s1|e s1| |s1]; cbn [bind]; try exact Logic.I; [|exact P].
  destruct P as (p & u & IV1 & ((SH1 & _ & _ & PT1 & _) & FA1) & CU1).
  destruct used.
  - destruct (cFullSource c && _); [|exact Logic.I]. pose proof (rest_fail fuel s1 FA1 PT1) as RF. destruct (restLoop c fuel s1) as [|e s2| |]; cbn [bind]; try exact Logic.I.
    destruct RF as (x & u' & -> & TD). inversion CU1 as [t' TDu| | |]; subst t'. apply (rest_right p u) with (u' := u'); [eauto|congruence].
  - inversion CU1 as [|x FE FT|x NS|NS]; subst t; [|congruence|congruence]. destruct (Z.eqb_spec (cType c x) EoiTokenType) as [X|X]; [rewrite andb_false_r; exact Logic.I|].
    destruct FE as [(u' & -> & CO & LX & TD)|(_ & XE & _)]; [|destruct X; rewrite XE; apply (eoi_type c lexed fair view eoi WI)].
    destruct FT as (types & src & FS & FE). assert (NEF : cType c x <> EofTokenType). { unfold PredictSpec.core in CO. apply andb_true_iff in CO as (_ & CO). apply negb_true_iff, Z.eqb_neq in CO. exact CO. }
    pose proof (UN _ _ _ _ FE X NEF) as VU. pose proof (UF _ _ _ _ FS FE X NEF) as FU. set (s2 := setWorld s1 (cUnread c x (fst (pWorld s1)), snd (pWorld s1))).
    destruct (cFullSource c && negb false); [|exact Logic.I]. pose proof (rest_fail fuel s2 FU PT1) as RF. destruct (restLoop c fuel s2) as [|e s3| |]; cbn [bind]; try exact Logic.I.
    destruct RF as (y & u2 & -> & TD2). assert (y = x) as ->. { unfold PredictRun.todo, PredictRun.left in TD2. change (srcOf s2) with (cUnread c x (srcOf s1)) in TD2. rewrite VU in TD2. cbn [filter] in TD2. rewrite CO in TD2. congruence. }
    apply (rest_right p (x :: u')) with (u' := u'); [eauto|reflexivity].
Qed.
End P.
