(** A parse comes to an end (C28). *)
From Coq Require Import ZArith List Bool Lia Arith Relations.
From Verif Require Import Base BaseProofs Grammar Rules RulesSpec Prop_Rules Parser ParserSpec ParserInv ParserLook ParserMain ParserFlowSpec ParserDemo TablesCheck ParserTermSpec ParserFuel ParserIdle ParserTermLook ParserTerm IdleCheck.
Import ListNotations.
Open Scope Z_scope.

(** The bound on the number of steps plays no role: once a parse has ended within some bound, any
    greater bound gives the same result, error and final state. *)
Theorem parse_bound_irrelevant {Tok Src W E Inst R} (c : config Tok Src W E Inst R) fuel fuel' w t0 : (fuel <= fuel')%nat ->
  (forall s, parseFrom c fuel w t0 <> NoFuel s) -> parseFrom c fuel' w t0 = parseFrom c fuel w t0.
Proof. intros H HN. destruct (le_parseFrom c fuel fuel' w t0 H) as [(s & X)|X]; auto. destruct (HN s X). Qed.

(** For well formed tables without idle loops, a finite source, node hooks that put nothing into
    the source and no token hooks: a parse ends, unless an ambiguity is resolved wrongly (see
    [parse_is_derivation_refuted]). *)
Theorem parse_terminates_partial {Tok Src W E Inst R} (c : config Tok Src W E Inst R) size w t0 :
  tablesOk (cGrammar c) -> noIdleLoop (cGrammar c) -> finiteSource c size -> addsNothing c size -> cTokenHooks c = [] ->
  exists bound, forall fuel, (bound <= fuel)%nat -> forall s, parseFrom c fuel w t0 = NoFuel s -> pLost s = true.
Proof. intros. apply (parseFrom_halts c) with (size := size); auto. Qed.
(** In particular, for a grammar without ambiguous rules the parse always ends, with a result
    that does not depend on the bound. *)
Theorem parse_terminates_unambiguous_partial {Tok Src W E Inst R} (c : config Tok Src W E Inst R) size w t0 :
  tablesOk (cGrammar c) -> noIdleLoop (cGrammar c) -> finiteSource c size -> addsNothing c size -> cTokenHooks c = [] ->
  gMultiRules (cGrammar c) = [] ->
  exists bound x, (forall s, x <> NoFuel s) /\ forall fuel, (bound <= fuel)%nat -> parseFrom c fuel w t0 = x.
Proof.
  intros TO NL FS AN N0 GM. destruct (parse_terminates_partial c size w t0) as (N & HN); auto.
  assert (HA : forall s, parseFrom c N w t0 <> NoFuel s).
  { intros s HX. pose proof (HN N (le_n N) s HX) as HL. pose proof (parseFrom_unlost c N0 N w t0 GM) as U. rewrite HX in U. cbn in U. congruence. }
  exists N, (parseFrom c N w t0). split; auto. intros fuel HF. apply parse_bound_irrelevant; auto.
Qed.

Module Example1.
  Lemma demo_finite g sides full : finiteSource (demo g [] sides full) (@length dTok).
  Proof.
    intros types src src' t e. unfold fetchToken. cbn [demo cLexers fetchLoop]. unfold dLexer. destruct src as [|t0 r]; intros H; injection H as <- <- <-.
    - split; auto. intros tok HT HN. injection HT as <-. destruct HN. reflexivity.
    - cbn [length]. split; auto.
  Qed.
  Lemma demo_adds g sides full : addsNothing (demo g [] sides full) (@length dTok).
  Proof.
    constructor; try reflexivity. intros table h n t w [<-|[]] [X|X].
    - injection X as <-. reflexivity.
    - apply in_map_iff in X as (x & X & _). discriminate.
  Qed.
  Definition dRank (i : Z) : nat := if i <? 0 then O else nth (Z.to_nat i) [1; 4; 3; 1; 1]%nat O.
  Example no_loop : noIdleLoop dGrammar.
  Proof. apply (idleB_ok dGrammar dRank [-1; 1; 2]). vm_compute. reflexivity. Qed.
  Example ok : tablesOk dGrammar /\ noIdleLoop dGrammar /\ finiteSource (demo dGrammar [] true true) (@length dTok) /\
    addsNothing (demo dGrammar [] true true) (@length dTok) /\ gMultiRules dGrammar = [].
  Proof. split; [apply tablesB_ok; vm_compute; reflexivity|]. split; [apply no_loop|]. split; [apply demo_finite|]. split; [apply demo_adds|reflexivity]. Qed.
  Example ends : exists r s, parseFrom (demo dGrammar [] true true) 50 ([(0, 1); (2, 2); (3, 3); (4, 4); (4, 5)], 0) (0, 1) = Done r s.
  Proof. do 2 eexists. vm_compute. reflexivity. Qed.

  (** "{[a]} b" as compiled by langdef: state 0: any -> 0, a -> 0, b -> final *)
  Definition gLoop : grammar := mkGrammar [mkTok [97] [97] 0 0; mkTok [98] [98] 0 0; mkTok [99] [99] 0 0] [] [mkNode [1] 0]
    [mkState 7 0 0 0 3] [] [mkRule (-1) 0 (-1); mkRule 0 0 (-1); mkRule 1 (-1) (-1)].
  Example loop : clos_trans Z (idle gLoop) 0 0.
  Proof.
    apply t_step. apply (ID_skip gLoop 0 (mkRule (-1) 0 (-1))); [|split; auto].
    exists (mkState 7 0 0 0 3), [mkRule (-1) 0 (-1); mkRule 0 0 (-1); mkRule 1 (-1) (-1)], [], [mkRule (-1) 0 (-1)].
    split; [reflexivity|]. split; [reflexivity|]. split; [reflexivity|]. split; [|left; reflexivity]. constructor; [left; reflexivity|reflexivity].
  Qed.
End Example1.

(** C28 refuted for grammars with idle loops: "{[a]} b" never finishes on a token "c", though the
    tables are well formed, the source finite and there are no ambiguous rules. *)
Theorem parse_terminates_refuted : exists (g : grammar) (src : list dTok) (t0 : dTok),
  tablesOk g /\ gMultiRules g = [] /\
  finiteSource (demo g [] true true) (@length dTok) /\ addsNothing (demo g [] true true) (@length dTok) /\
  (forall fuel, exists s, parseFrom (demo g [] true true) fuel (src, 0) t0 = NoFuel s) /\
  exists r s, parseFrom (demo g [] true true) 50 ([(0, 1); (0, 2); (1, 3)], 0) t0 = Done r s.
Proof.
  exists Example1.gLoop, [(2, 1)], (2, 1). split; [apply tablesB_ok; vm_compute; reflexivity|]. split; [reflexivity|].
  split; [apply Example1.demo_finite|]. split; [apply Example1.demo_adds|]. split; [|do 2 eexists; vm_compute; reflexivity].
  set (c := demo Example1.gLoop [] true true). set (t := Some (2, 1)). intros fuel. unfold parseFrom.
  destruct (start c ([(2, 1)], 0) (2, 1)) as [u s|e s| |s] eqn:ES; [|discriminate|discriminate|discriminate]. cbn [bind].
  assert (LP : forall f lg, exists s2, parseLoop c f false t (mkP (@nil dTok, 0) [] [] [] None (pStack s) lg false) = NoFuel s2).
  { vm_compute in ES. injection ES as _ <-. cbn [pStack]. induction f as [|f IH]; intros lg; cbn [parseLoop]; [eauto|]. cbn [pStack].
    match goal with |- context [match zget ?a ?b with _ => _ end] => let v := eval vm_compute in (zget a b) in replace (zget a b) with v by (vm_compute; reflexivity) end.
    cbn iota beta. match goal with |- context [nextRule ?a ?b ?d ?e ?h] => replace (nextRule a b d e h) with (Done (Some (mkRule (-1) 0 (-1))) h) by (vm_compute; reflexivity) end.
    cbn [bind]. match goal with |- context [applyRule ?a ?b ?d ?e] => replace (applyRule a b d e) with (Done false e) by (vm_compute; reflexivity) end.
    cbn [bind]. apply IH. }
  assert (LL : exists s2, parseLoop c fuel true None s = NoFuel s2).
  { destruct fuel as [|fuel]; [cbn; eauto|]. cbn [parseLoop]. vm_compute in ES. injection ES as _ <-. cbn [pStack]. unfold checkCtx. cbn [c demo cCtx pWorld ret bind].
    destruct fuel as [|fuel]; [cbn; eauto|].
    match goal with |- context [nextToken ?a ?b ?d ?e] => replace (nextToken a b d e) with (Done t (mkP (@nil dTok, 0) [] [] [] None (pStack e) (EvPass 0 t :: pLog e) false)) end.
    - cbn [bind]. apply LP.
    - vm_compute. reflexivity. }
  destruct LL as (s2 & LL). exists s2. transitivity (parse c fuel s); [exact (f_equal (fun m => bind m (fun _ s => parse c fuel s)) ES)|]. unfold parse. rewrite LL. reflexivity.
Qed.
Print Assumptions parse_bound_irrelevant.
Print Assumptions parse_terminates_partial.
Print Assumptions parse_terminates_unambiguous_partial.
Print Assumptions parse_terminates_refuted.
