(** Valid input of LL(1) grammars is accepted (C49). *)
From Coq Require Import ZArith List Bool Lia Arith.
From Verif Require Import Base BaseProofs Grammar Rules RulesSpec Prop_Rules Parser ParserSpec ParserSafeSpec ParserFlowSpec ParserFuel ParserEnd ParserDemo SafeCheck
  PredictSpec Predict PredictSim PredictRun PredictTree Prop_Parser Prop_ParserSafe.
Import ListNotations.
Open Scope Z_scope.

Section P.
Context {Tok Src W E Inst R : Type}.
Variable c : config Tok Src W E Inst R.
Notation g := (cGrammar c).
Variable lexed : Tok -> Prop.

(** If the tokens of the source are the tokens of some tree of the grammar, then the parse succeeds (given enough fuel:
    that it ends on every input is C28). *)
Theorem valid_input_accepted (fair : Src -> Prop) (view : Src -> list Tok) eoi w t0 (T : tree Tok Inst R) :
  predictiveGrammar c lexed -> calmHooks c -> willing c lexed fair view eoi -> fair (fst w) ->
  treeFor c lexed T (view (fst w)) ->
  exists n, forall fuel, (n <= fuel)%nat -> exists r s, parseFrom c fuel w t0 = Done r s.
Proof.
  intros PG CH WI FA (D & LX & LE).
  destruct (tree_acc c lexed (pg_core _ _ PG) (pg_nodes _ _ PG) T D LX) as (nt & G & A).
  assert (SE : settle [(RootNode, gnFirst nt)] = [(RootNode, gnFirst nt)]).
  { destruct (go_first _ (pg_ok _ _ PG) _ _ G) as (st & GS). cbn [settle]. destruct (Z.eqb_spec (gnFirst nt) FinalState) as [X|X]; [|reflexivity]. rewrite X in GS. discriminate. }
  rewrite SE, LE in A.
  destruct (accepted c lexed (pg_ok _ _ PG) (ch_errors _ CH) (ch_quiet _ CH) (ch_tokens _ CH) (ch_nodes _ CH) (pg_predictive _ _ PG) (pg_types _ _ PG) fair view eoi WI nt w t0 G FA A)
    as (f & r & s & P).
  exists f. intros fuel L. destruct (le_parseFrom c f fuel w t0 L) as [(s' & X)|X]; [congruence|]. exists r, s. congruence.
Qed.

Lemma eoi_matches t k : cType c t = EoiTokenType -> tokenMatches (cType c) (cText c) (cUpper c) g t k -> k = EoiTokenType \/ k = AnyToken.
Proof.
  intros TY (keys & K & I). assert (NL : forall i, ~ literalFor (cType c) (cText c) (cUpper c) g t i). { intros i [d GT _ _]. rewrite TY in GT. discriminate. }
  inversion K as [|t' N|t' i L NR|t' i L RS]; subst; [|destruct (NL i L)..]. rewrite TY in I. destruct I as [I|[I|[]]]; auto.
Qed.
Scheme run_mut := Induction for ParserSpec.run Sort Prop
with derived_mut := Induction for ParserSpec.derived Sort Prop.
Lemma no_eoi_leaves (EL : forall j r, ruleOf g j r -> rToken r <> EoiTokenType) n (T : tree Tok Inst R) : derived (cType c) (cText c) (cUpper c) g n T ->
  forall t, In t (leaves T) -> cType c t <> EoiTokenType.
Proof.
  intros D.
  refine (derived_mut Tok Inst R (cType c) (cText c) (cUpper c) g (fun _ ks _ _ => forall t, In t (leavesL ks) -> cType c t <> EoiTokenType)
    (fun _ T _ => forall t, In t (leaves T) -> cType c t <> EoiTokenType) _ _ _ _ _ _ n T D).
  - intros i t [].
  - intros i ks j t RN IH SD x I. rewrite leavesL_snoc in I. apply in_app_or in I. destruct I as [I|[<-|[]]]; [apply IH, I|].
    destruct SD as (t' & X & (d & G & _)). injection X as <-. intros X. rewrite X in G. discriminate.
  - intros i ks j t r RN IH RU SN RD TM x I. rewrite leavesL_snoc in I. apply in_app_or in I. destruct I as [I|[<-|[]]]; [apply IH, I|].
    intros X. destruct (eoi_matches _ _ X TM) as [Y|Y]; [exact (EL j r RU Y)|contradiction].
  - intros i ks j r RN IH RU SN RA. exact IH.
  - intros i ks j r T' RN IH RU SN D' IHD x I. rewrite leavesL_snoc in I. apply in_app_or in I. destruct I as [I|I]; [apply IH, I|apply IHD, I].
  - intros n' nt t0 hooks results kids G RN IH x I. rewrite leaves_node in I. apply IH, I.
Qed.
Lemma filter_core_visible l : filter (core c) (filter (visible c) l) = filter (core c) l.
Proof.
  induction l as [|t l IH]; [reflexivity|]. cbn [filter]. unfold visible at 1, core at 2. destruct (cType c t =? EofTokenType) eqn:E1, (sideToken c t) eqn:E2, (cPassSides c); cbn; rewrite ?IH; try reflexivity;
    cbn [filter]; unfold core at 1; rewrite E1, E2; cbn; rewrite ?IH; reflexivity.
Qed.
Lemma filter_core_side l : (forall t, In t l -> sideToken c t = true) -> filter (core c) l = [].
Proof.
  induction l as [|t l IH]; intros H; [reflexivity|]. cbn [filter]. unfold core at 1. rewrite (H t (or_introl eq_refl)). cbn. apply IH. intros x I. apply H. right. exact I.
Qed.
Lemma filter_all {A} (f : A -> bool) l : (forall x, In x l -> f x = true) -> filter f l = l.
Proof. induction l as [|x l IH]; intros H; [reflexivity|]. cbn. rewrite (H x (or_introl eq_refl)), IH; [reflexivity|]. intros y I. apply H. right. exact I. Qed.

(** When the whole source is wanted, a source is accepted exactly if its tokens are the tokens of a tree of the grammar. *)
Theorem accepted_exactly (fair : Src -> Prop) (view : Src -> list Tok) eoi w t0 :
  predictiveGrammar c lexed -> calmHooks c -> willing c lexed fair view eoi -> fair (fst w) -> unreadOf c view -> cFullSource c = true ->
  (forall t, In t (view (fst w)) -> cType c t <> EoiTokenType) ->
  (exists n, forall fuel, (n <= fuel)%nat -> exists r s, parseFrom c fuel w t0 = Done r s) <->
  (exists T : tree Tok Inst R, treeFor c lexed T (view (fst w))).
Proof.
  intros PG CH WI FA UN FS NE. split.
  - intros (n & H). destruct (H n (Nat.le_refl _)) as (r & s & P).
    destruct (full_source_is_the_tree c view eoi n w t0 r s (wi_source _ _ _ _ _ WI) UN (ch_quiet _ CH) (ch_tokens _ CH) (pr_multi _ _ (pg_predictive _ _ PG)) FS NE P) as (T & tr & _ & V & SD & D).
    specialize (D (go_tables _ (pg_ok _ _ PG))). exists T. rewrite (filter_all (fun t => negb (cType c t =? EoiTokenType))) in V.
    2:{ intros x I. apply negb_true_iff, Z.eqb_neq. exact (no_eoi_leaves (pg_endless _ _ PG) _ T D x I). }
    split; [exact D|]. split.
    + intros t I. apply (wi_lexed _ _ _ _ _ WI (fst w) t FA). assert (X : In t (filter (visible c) (view (fst w)))) by (rewrite V; apply in_or_app; auto). apply filter_In in X. apply X.
    + rewrite <- (filter_core_visible (view (fst w))), V, filter_app, (filter_core_side tr SD), app_nil_r. reflexivity.
  - intros (T & TF). eapply valid_input_accepted; eassumption.
Qed.
End P.

(** The grammar of the examples, "a {b} [node]" where node is "c d", and a lexer that looks at the wanted types *)
Module Example1.
  Definition c := Prop_ParserSafe.Example1.conf dGrammar [].
  Definition lexed (t : dTok) : Prop := 0 <= fst t < 5 \/ t = dEoi.
  Definition fair (src : list dTok) : Prop := forall t, In t src -> 0 <= fst t < 5.
  Definition view (src : list dTok) : list dTok := src.
  Lemma rules j r : ruleOf dGrammar j r -> exists st, zget (gStates dGrammar) j = Some st /\ In r (match zslice (gRules dGrammar) (sLow st) (sHigh st) with Some l => l | None => [] end).
  Proof.
    intros (st & rules & multi & rs & G & SR & SM & HR & IR). exists st. split; [exact G|]. rewrite SR. inversion HR as [r0 I0 E0|m rs0 Im E1 E2]; subst; [destruct IR as [<-|[]]; exact I0|].
    assert (X : In m (gMultiRules dGrammar)). { unfold zslice in SM. destruct (_ && _ && _); [|discriminate]. injection SM as <-. cbn [gMultiRules dGrammar] in Im. rewrite skipn_nil, firstn_nil in Im. destruct Im. }
    destruct X.
  Qed.
  Lemma cases j r : ruleOf dGrammar j r -> In (j, r)
    [(0, mkRule 0 1 (-1)); (1, mkRule (-1) 2 (-1)); (1, mkRule 1 1 (-1)); (2, mkRule (-1) (-1) (-1)); (2, mkRule 2 (-1) 1); (3, mkRule 2 4 (-1)); (4, mkRule 3 (-1) (-1))].
  Proof.
    intros H. destruct (rules j r H) as (st & G & I). pose proof (zget_Some_inv _ _ _ G) as R. change (zlen (gStates dGrammar)) with 5 in R.
    assert (C : j = 0 \/ j = 1 \/ j = 2 \/ j = 3 \/ j = 4) by lia.
    destruct C as [->|[->|[->|[->| ->]]]]; vm_compute in G; injection G as <-; vm_compute in I; cbn; intuition subst; auto 10.
  Qed.
  Lemma rule_is j r : In (j, r) [(0, mkRule 0 1 (-1)); (1, mkRule (-1) 2 (-1)); (1, mkRule 1 1 (-1)); (2, mkRule (-1) (-1) (-1)); (2, mkRule 2 (-1) 1); (3, mkRule 2 4 (-1)); (4, mkRule 3 (-1) (-1))] -> ruleOf dGrammar j r.
  Proof.
    intros I. cbn in I. destruct I as [X|[X|[X|[X|[X|[X|[X|[]]]]]]]]; injection X as <- <-; (match goal with |- ruleOf _ _ ?r => eexists _, _, _, [r] end; split; [vm_compute; reflexivity|]; split; [vm_compute; reflexivity|]; split; [vm_compute; reflexivity|];
      split; [apply HR_one; [cbn; auto|reflexivity]|left; reflexivity]).
  Qed.
  Lemma matches (t : dTok) k : tokenMatches (cType c) (cText c) (cUpper c) dGrammar t k <-> k = fst t \/ k = AnyToken.
  Proof.
    assert (NL : forall i, ~ literalFor (cType c) (cText c) (cUpper c) dGrammar t i).
    { intros i [d _ _ ((d' & G & F & N) & _)]. pose proof (zget_Some_inv _ _ _ G) as R. change (zlen (gTokens dGrammar)) with 5 in R.
      assert (C : i = 0 \/ i = 1 \/ i = 2 \/ i = 3 \/ i = 4) by lia. destruct C as [->|[->|[->|[->| ->]]]]; vm_compute in G; injection G as <-; discriminate F. }
    split.
    - intros (keys & K & I). inversion K as [|t' N|t' i L NR|t' i L RS]; subst; [|destruct (NL i L)..]. destruct I as [I|[I|[]]]; auto.
    - intros I. exists [fst t; AnyToken]. split; [apply (K_type (cType c)), NL|]. cbn. destruct I; auto.
  Qed.
  Ltac each H := apply cases in H; cbn in H; let HA := fresh "HA" in let HB := fresh "HB" in destruct H as [H|[H|[H|[H|[H|[H|[H|[]]]]]]]]; pose proof (f_equal fst H) as HA; pose proof (f_equal snd H) as HB; clear H; cbn [fst snd] in HA, HB; try discriminate HA; try subst; try clear HA; try clear HB.
  Lemma ends j t : comesNext c 0 j t -> (j = FinalState -> fst t = EoiTokenType) /\ (j = 2 -> fst t = 2 \/ fst t = EoiTokenType).
  Proof.
    intros H. remember 0 as n eqn:EN. induction H as [n j r t RU RD TM|n j r t RU RA CN IH|n m j r t O RU RN CN IH|t TY].
    - unfold reads in RD. each RU; cbn in *; apply matches in TM; unfold AnyToken, FinalState in *; split; intros; try lia.
    - specialize (IH EN). each RU; cbn in *; try discriminate; unfold FinalState in *; destruct IH as (A & B); split; intros; try lia; right; apply A; reflexivity.
    - subst n. each RU; discriminate.
    - split; [auto|discriminate].
  Qed.
  Lemma starts ks j : run (Inst := Z) (R := Z) (cType c) (cText c) (cUpper c) dGrammar 3 ks j ->
    (j = 3 /\ filter (core c) (leavesL ks) = []) \/ (j = 4 \/ j = FinalState) /\ exists t u, filter (core c) (leavesL ks) = t :: u /\ fst t = 2.
  Proof.
    intros H. remember 3 as i eqn:EI. induction H as [i|i ks j t RN IH SD|i ks j t r RN IH RU SN RD TM|i ks j r RN IH RU SN RA|i ks j r T RN IH RU SN D].
    - left. auto.
    - rewrite leavesL_snoc, filter_app. cbn [leaves filter]. assert (CO : core c t = false). { destruct SD as (t' & X & (d & G & F)). injection X as <-. unfold core, sideToken. change (cGrammar c) with dGrammar. rewrite G, F. reflexivity. }
      rewrite CO, app_nil_r. apply IH, EI.
    - rewrite leavesL_snoc, filter_app. cbn [leaves filter]. specialize (IH EI); subst i; destruct IH as [(-> & X)|(J & t' & u & X & Y)].
      + each RU; try discriminate. right. split; [auto|]. apply matches in TM. cbn in TM. rewrite X. exists t, []. split; [|unfold AnyToken in TM; lia].
        unfold core, sideToken. cbn [cType c Prop_ParserSafe.Example1.conf demo]. destruct t as (a, b). cbn in *. assert (a = 2) as -> by (unfold AnyToken in TM; lia). reflexivity.
      + right. split; [|exists t', (u ++ (if core c t then [t] else [])); split; [rewrite X; destruct (core c t); reflexivity|exact Y]]. destruct J; subst j; each RU; cbn; auto.
    - specialize (IH EI); subst i; destruct IH as [(-> & X)|(J & X)]; [each RU; discriminate|]. destruct J; subst j; each RU; cbn in *; discriminate.
    - specialize (IH EI); subst i; destruct IH as [(-> & X)|(J & X)]; [each RU; destruct SN; reflexivity|]. destruct J; subst j; each RU; destruct SN; reflexivity.
  Qed.
  Lemma some_type types : Z.testbit types 0 = true -> wanted c types EoiTokenType.
  Proof. intros T. exists 0. split; [reflexivity|]. split; [|exact T]. eexists. split; [reflexivity|discriminate]. Qed.
  Example predictive_ok : predictiveGrammar c lexed.
  Proof.
    constructor.
    - apply (grammarB_ok dGrammar); [reflexivity|vm_compute; reflexivity].
    - constructor.
      + reflexivity.
      + intros j r r' t RU RU' RD RD' LX TM TM'. unfold reads in *. apply matches in TM. apply matches in TM'.
        assert (X : rToken r = rToken r') by (destruct TM, TM'; congruence). each RU; each RU'; cbn in *; first [reflexivity|discriminate|congruence].
      + intros n j r r' t O RU RA RU' RD LX TM CN. assert (j = 1 \/ j = 2) as J by (each RU; cbn in *; (discriminate || auto)).
        assert (NN : n = 0).
        { assert (OK : (n = 0 /\ (j = 0 \/ j = 1 \/ j = 2 \/ j = FinalState)) \/ (n = 1 /\ (j = 3 \/ j = 4 \/ j = FinalState))).
          { clear -O. induction O as [n nt G|n j r O IH RU].
            - pose proof (zget_Some_inv _ _ _ G) as B. change (zlen (gNodes (cGrammar c))) with 2 in B. assert (C : n = 0 \/ n = 1) by lia. destruct C as [->| ->]; vm_compute in G; injection G as <-; cbn; auto.
            - each RU; cbn; destruct IH as [(A & B)|(A & B)]; auto 10; destruct B as [B|[B|B]]; try discriminate; destruct B; discriminate. }
          destruct OK as [(A & B)|(A & B)]; [exact A|]. exfalso. destruct J as [J|J]; rewrite J in B; unfold FinalState in B; lia. }
        subst n. unfold reads in RD. apply matches in TM. each RU; try discriminate; each RU'; cbn in *; try congruence; apply ends in CN; destruct CN as (A & B); unfold AnyToken, FinalState, EoiTokenType, Verif.Lexer.EoiTokenType in *; destruct TM as [TM|TM]; try lia; try (specialize (A eq_refl); lia); specialize (B eq_refl); lia.
    - intros j r t RU RD LX TM. unfold reads in RD. apply matches in TM. unfold core, sideToken. destruct t as (a, b). cbn in *. each RU; cbn in *; unfold AnyToken in *; try congruence; destruct TM as [<-|TM]; try discriminate; reflexivity.
    - constructor.
      + intros j r T RU SN D LX. each RU; try (destruct SN; reflexivity). inversion D as [? nt t0 hooks results kids G RN E1 E2]; subst. vm_compute in G. injection G as <-. cbn [rNode gnFirst] in *.
        destruct (starts _ _ RN) as [(X & _)|(_ & t & u & X & _)]; [discriminate|]. rewrite leaves_node, X. discriminate.
      + intros j r T t u RU SN D LX F. assert (RU' := RU). each RU; try (destruct SN; reflexivity). inversion D as [? nt t0 hooks results kids G RN E1 E2]; subst. vm_compute in G. injection G as <-. cbn [rNode gnFirst] in *.
        destruct (starts _ _ RN) as [(X & _)|(_ & t' & u' & X & Y)]; [discriminate|]. rewrite leaves_node, X in F. injection F as <- <-.
        eexists. split; [exact RU'|]. split; [reflexivity|]. split; [reflexivity|]. split; [discriminate|]. apply matches. cbn. auto.
    - intros j st r t1 G RU RD L1 M1. assert (TY : sTypes st = 31).
      { pose proof (zget_Some_inv _ _ _ G) as B. change (zlen (gStates (cGrammar c))) with 5 in B. assert (C : j = 0 \/ j = 1 \/ j = 2 \/ j = 3 \/ j = 4) by lia. destruct C as [->|[->|[->|[->| ->]]]]; vm_compute in G; injection G as <-; reflexivity. }
      assert (WA : forall t, lexed t -> wanted c (sTypes st) (cType c t)).
      { intros (a, b) [L|L]; rewrite TY; unfold wanted; cbn in *.
        - destruct (Z.ltb_spec a 0); [lia|]. assert (C : a = 0 \/ a = 1 \/ a = 2 \/ a = 3 \/ a = 4) by lia. destruct C as [->|[->|[->|[->| ->]]]]; reflexivity.
        - injection L as -> ->. apply (some_type 31). reflexivity. }
      split; intros; apply WA; assumption.
    - intros j r RU. each RU; discriminate.
  Qed.
  Example calm_ok : calmHooks c.
  Proof.
    constructor.
    - constructor; try reflexivity. intros table h n t w [<-|[]] [X|X]; [injection X as <-; reflexivity|]. apply in_map_iff in X as (x & X & _). discriminate.
    - pose proof (demo_quiet dGrammar [] true true ltac:(intros ? ? ? [])) as []. constructor; assumption.
    - reflexivity.
    - intros table [<-|[]]. reflexivity.
  Qed.
  Example willing_ok : willing c lexed fair view dEoi.
  Proof.
    assert (BIT : forall x, 0 <= x < 64 -> Z.testbit AllTokenTypes x = true) by (intros x H; change AllTokenTypes with (Z.ones 64); apply Z.ones_spec_low; exact H).
    constructor.
    - split; [reflexivity|]. unfold fetchToken. split; intros types [|t src] src'; cbn [c Prop_ParserSafe.Example1.conf cLexers fetchLoop Prop_ParserSafe.Example1.kLexer].
      + intros x H. injection H as <- <-. auto.
      + intros x. destruct (_ && _); [destruct (Z.testbit types (fst t))|].
        * intros H. injection H as <- <-. auto.
        * discriminate.
        * discriminate.
      + discriminate.
      + destruct (_ && _); [destruct (Z.testbit types (fst t))|]; intros H; try discriminate H; apply (f_equal fst) in H; cbn in H; subst src'; reflexivity.
    - intros types [|t src] F; unfold fetchToken; cbn [c Prop_ParserSafe.Example1.conf cLexers fetchLoop Prop_ParserSafe.Example1.kLexer].
      + eexists _, _. split; [reflexivity|exact F].
      + pose proof (F t (or_introl eq_refl)) as B. change (zlen (gTokens dGrammar)) with 5. destruct (Z.leb_spec 0 (fst t)); [|lia]. destruct (Z.ltb_spec (fst t) 5); [|lia]. cbn [andb].
        destruct (Z.testbit types (fst t)) eqn:T.
        * eexists _, _. split; [reflexivity|]. intros x I. apply F. right. exact I.
        * destruct (Z.eqb_spec types AllTokenTypes) as [->|]; [rewrite BIT in T by lia; discriminate|]. eexists _, _. split; [reflexivity|exact F].
    - intros src t F I. left. apply F, I.
    - right. reflexivity.
    - intros t [L|L]; [left; change (cType c t) with (fst t); split; [lia|]; assert (C : fst t = 0 \/ fst t = 1 \/ fst t = 2 \/ fst t = 3 \/ fst t = 4) by lia; destruct C as [->|[->|[->|[->| ->]]]]; (eexists; split; [reflexivity|discriminate])|]. right. right. rewrite L. reflexivity.
    - apply (some_type AllTokenTypes). reflexivity.
    - intros types [|t src] src' F; unfold fetchToken; cbn [c Prop_ParserSafe.Example1.conf cLexers fetchLoop Prop_ParserSafe.Example1.kLexer]; [discriminate|].
      pose proof (F t (or_introl eq_refl)) as B. change (zlen (gTokens dGrammar)) with 5. destruct (Z.leb_spec 0 (fst t)); [|lia]. destruct (Z.ltb_spec (fst t) 5); [|lia]. cbn [andb].
      destruct (Z.testbit types (fst t)) eqn:T; [discriminate|]. intros _. cbn [view hd]. unfold wanted. change (cType c t) with (fst t). destruct (Z.ltb_spec (fst t) 0); [lia|]. rewrite T. discriminate.
  Qed.
  (** so "a b b c space d" is accepted and "a c b" is not *)
  Definition input : list dTok := [(0, 1); (1, 2); (1, 3); (2, 4); (4, 5); (3, 6)].
  Example valid : exists T, treeFor c lexed T (view input).
  Proof.
    apply (accepted_exactly c lexed fair view dEoi (input, 0) (0, 1) predictive_ok calm_ok willing_ok).
    - intros t I. cbn in I. intuition subst; cbn; lia.
    - intros types src src' t _ _ _. reflexivity.
    - reflexivity.
    - intros t I. cbn in I. intuition subst; discriminate.
    - exists 50%nat. intros fuel L. destruct (parseFrom c 50 (input, 0) (0, 1)) as [r s| | |] eqn:P; [|vm_compute in P; discriminate P..].
      destruct (le_parseFrom c 50 fuel (input, 0) (0, 1) L) as [(s' & X)|X]; [congruence|]. exists r, s. congruence.
  Qed.
  Example invalid : ~ exists T, treeFor c lexed T (view [(0, 1); (2, 2); (1, 3)]).
  Proof.
    intros (T & H). destruct (valid_input_accepted c lexed fair view dEoi ([(0, 1); (2, 2); (1, 3)], 0) (0, 1) T predictive_ok calm_ok willing_ok) as (n & P); [|exact H|].
    - intros t I. cbn in I. intuition subst; cbn; lia.
    - destruct (P (n + 50)%nat ltac:(lia)) as (r & s & X).
      destruct (parseFrom c 50 ([(0, 1); (2, 2); (1, 3)], 0) (0, 1)) as [r' s'|e s'| |s'] eqn:Q; [vm_compute in Q; discriminate Q| |vm_compute in Q; discriminate Q..].
      destruct (le_parseFrom c 50 (n + 50) ([(0, 1); (2, 2); (1, 3)], 0) (0, 1) ltac:(lia)) as [(s2 & Y)|Y]; congruence.
  Qed.
End Example1.

Print Assumptions valid_input_accepted.
Print Assumptions accepted_exactly.
