(** Concrete parses: cases for the theorems of Prop_Parser, and refutations. *)
From Coq Require Import ZArith List Bool Lia Arith Sorted.
From Verif Require Import Base BaseProofs Grammar Rules RulesSpec Prop_Rules TablesCheck Parser ParserSpec ParserFlowSpec ParserDemo Prop_Parser.
Import ListNotations.
Open Scope Z_scope.

(** *** C25-C27, C33: a parse with a nested node and side tokens *)
Module Example1.
  Definition c := demo dGrammar [] true true.
  Definition source : list dTok := [(0, 1); (4, 2); (1, 3); (1, 4); (2, 5); (4, 6); (3, 7); (4, 8)].
  Definition T : tree dTok Z Z := Node 0 (Some (0, 1)) [Some 0] [Some 10]
    [Leaf (0, 1); Leaf (4, 2); Leaf (1, 3); Leaf (1, 4); Node 1 (Some (2, 5)) [Some 1] [Some 11] [Leaf (2, 5); Leaf (4, 6); Leaf (3, 7)]].
  Example parsed : exists s, parseFrom c 50 (source, 0) (0, 1) = Done (Some 10) s /\
    nodeEvents (rev (pLog s)) = trace (hookedIn (cNodeHooks c)) [] T /\ everyNodeHas 0 T /\ tokensOf 0 (rev (pLog s)) = leaves T.
  Proof. eexists. split; [vm_compute; reflexivity|]. split; [vm_compute; reflexivity|]. split; [|vm_compute; reflexivity]. cbn. repeat split; eauto. Qed.
  Example tables : tablesOk (cGrammar c) /\ gMultiRules (cGrammar c) = [].
  Proof. split; [apply tablesB_ok; vm_compute; reflexivity|reflexivity]. Qed.
  Example readable : sourceOf c (fun src => src) dEoi /\ unreadOf c (fun src => src) /\ quietHooks c.
  Proof. split; [apply demo_source|]. split; [apply demo_unread|apply demo_quiet]. intros ? ? ? []. Qed.
End Example1.

(** *** C27: a parse of tables with an ambiguous rule, no branch is lost *)
Module Example2.
  (** "a b" or "a c" *)
  Definition g := mkGrammar [mkTok [97] [97] 0 0; mkTok [98] [98] 0 0; mkTok [99] [99] 0 0] [] [mkNode [1] 0]
    [mkState 7 0 1 0 0; mkState 7 0 0 0 1; mkState 7 0 0 1 2] [mkMulti 0 2 4]
    [mkRule 1 (-1) (-1); mkRule 2 (-1) (-1); mkRule 0 1 (-1); mkRule 0 2 (-1)].
  Example parsed : tablesOk g /\ exists s, parseFrom (demo g [] false false) 50 ([(0, 1); (2, 2); (1, 3)], 0) (0, 1) = Done (Some 10) s /\ pLost s = false /\
    tokensOf 0 (rev (pLog s)) = [(0, 1); (2, 2)].
  Proof. split; [apply tablesB_ok; vm_compute; reflexivity|]. eexists. split; [vm_compute; reflexivity|]. split; vm_compute; reflexivity. Qed.
End Example2.

(** *** C27 refuted: the lookahead loses a branch and replays rules that do not fit *)
Module Lost.
  (** the language is abd, abbc, abe *)
  Definition g := mkGrammar
    [mkTok [97] [97] 0 0; mkTok [98] [98] 0 0; mkTok [99] [99] 0 0; mkTok [100] [100] 0 0; mkTok [101] [101] 0 0] [] [mkNode [1] 0]
    [mkState 31 0 1 0 0; mkState 31 1 2 0 0; mkState 31 0 0 0 1; mkState 31 0 0 1 2; mkState 31 0 0 2 3; mkState 31 0 0 3 4; mkState 31 0 0 4 5]
    [mkMulti 0 5 7; mkMulti 1 7 9]
    [mkRule 1 6 (-1); mkRule 3 (-1) (-1); mkRule 1 5 (-1); mkRule 2 (-1) (-1); mkRule 4 (-1) (-1);
     mkRule 0 1 (-1); mkRule 0 2 (-1); mkRule 1 3 (-1); mkRule 1 4 (-1)].
  Definition c := demo g [] true false.
  Definition source : list dTok := [(0, 1); (1, 2); (2, 3); (2, 4)].
  Notation run := (run (Inst := Z) (R := Z) (cType c) (cText c) (cUpper c) g).
  Notation derived := (derived (Inst := Z) (R := Z) (cType c) (cText c) (cUpper c) g).

  Definition steps : list (Z * (Z * Z)) := [(0, (0, 1)); (0, (0, 2)); (1, (1, 3)); (1, (1, 4)); (2, (1, 6)); (3, (3, -1)); (4, (1, 5)); (5, (2, -1)); (6, (4, -1))].
  Lemma rule_step j r : ruleOf g j r -> rNode r = SameNode /\ In (j, (rToken r, rState r)) steps.
  Proof.
    intros (st & rules & multi & rs & HZ & HR & HM & HS & HI).
    assert (HJ : j = 0 \/ j = 1 \/ j = 2 \/ j = 3 \/ j = 4 \/ j = 5 \/ j = 6) by (apply zget_Some_inv in HZ; unfold zlen in HZ; cbn in HZ; lia).
    repeat destruct HJ as [->|HJ]; [..|subst j]; vm_compute in HZ; injection HZ as <-; vm_compute in HR, HM; injection HR as <-; injection HM as <-;
      inversion HS as [r' H1 H2|m rs' H1 H2 H3]; subst; cbn in H1;
      (destruct H1 as [H1|[]] || destruct H1); subst; try (vm_compute in H3; injection H3 as <-); cbn in HI; intuition subst; cbn; auto 12.
  Qed.
  Lemma no_literal t i : ~ literalFor (Tok := dTok) (cType c) (cText c) (cUpper c) g t i.
  Proof.
    intros [d HT HN [[d' [HZ [HF _]]] _]]. 
    assert (HI : i = 0 \/ i = 1 \/ i = 2 \/ i = 3 \/ i = 4) by (apply zget_Some_inv in HZ; unfold zlen in HZ; cbn in HZ; lia).
    repeat destruct HI as [->|HI]; [..|subst i]; vm_compute in HZ; injection HZ as <-; discriminate.
  Qed.
  Lemma matches t key : tokenMatches (Tok := dTok) (cType c) (cText c) (cUpper c) g t key -> key <> AnyToken -> fst t = key.
  Proof.
    intros (keys & HK & HI) HA. inversion HK; subst.
    - destruct HI as [<-|[<-|[]]]; [auto|congruence].
    - exfalso. eapply no_literal; eauto.
    - exfalso. eapply no_literal; eauto.
  Qed.
  Definition words : list (Z * list Z) :=
    [(0, []); (1, [0]); (2, [0]); (3, [0; 1]); (4, [0; 1]); (6, [0; 1]); (5, [0; 1; 1]); (-1, [0; 1; 3]); (-1, [0; 1; 1; 2]); (-1, [0; 1; 4])].
  Lemma word_step j w a b : In (j, w) words -> In (j, (a, b)) steps -> In (b, w ++ [a]) words.
  Proof.
    unfold words at 1, steps. cbn [In]. intros H1 H2.
    repeat (destruct H1 as [H1|H1]; [injection H1 as <- <-; repeat (destruct H2 as [H2|H2]; [first [discriminate H2|injection H2 as <- <-; cbn; auto 12]|]); destruct H2|]).
    destruct H1.
  Qed.
  Lemma run_words ks j : run 0 ks j -> exists ts : list dTok, ks = map Leaf ts /\ In (j, map fst ts) words.
  Proof.
    intros H. remember 0 as i eqn:EI. induction H as [i|i ks j t H IH HS|i ks j t r H IH HR HN HT HM|i ks j r H IH HR HN HT|i ks j r T H IH HR HN HD].
    - exists []. subst. cbn. auto.
    - exfalso. destruct HS as (tk & E & d & HZ & HF). injection E as <-.
      assert (HI : fst t = 0 \/ fst t = 1 \/ fst t = 2 \/ fst t = 3 \/ fst t = 4) by (apply zget_Some_inv in HZ; unfold zlen in HZ; cbn in HZ; lia).
      cbn in HZ. repeat destruct HI as [HI|HI]; rewrite HI in HZ; vm_compute in HZ; injection HZ as <-; discriminate.
    - destruct (IH EI) as (ts & -> & HW). apply matches in HM; auto. destruct (rule_step _ _ HR) as [_ HS]. exists (ts ++ [t]). rewrite !map_app. split; auto.
      cbn [map]. rewrite HM. eapply word_step; eauto.
    - destruct (rule_step _ _ HR) as [_ HS]. rewrite HT in HS. cbn in HS. exfalso. repeat destruct HS as [HS|HS]; try discriminate. destruct HS.
    - destruct (rule_step _ _ HR) as [HS _]. congruence.
  Qed.
  Lemma leaf_trace hooks : forall ts : list dTok, exists l, (fix go l := match l with [] => [] | k :: r => trace (E := Z) (hookedIn (cNodeHooks c)) hooks k ++ go r end) (map Leaf ts : list (tree dTok Z Z)) = l /\
     tokensOf 0 l = match nth_error hooks 0 with Some (Some _) => ts | _ => [] end.
  Proof.
    induction ts as [|t ts (l & IH1 & IH2)]; [exists []; split; auto; cbn; destruct hooks as [|[]]; auto|]. eexists. split; [cbn [map]; rewrite IH1; reflexivity|].
    rewrite tokensOf_app, IH2. cbn [trace]. rewrite calls_token by lia. cbn [Nat.sub]. destruct (nth_error hooks 0) as [[|]|]; auto.
  Qed.

End Lost.
Theorem parse_is_derivation_refuted : exists r s, tablesOk Lost.g /\ parseFrom Lost.c 50 (Lost.source, 0) (0, 1) = Done r s /\
  forall T, nodeEvents (rev (pLog s)) = trace (hookedIn (cNodeHooks Lost.c)) [] T -> ~ derived (Inst := Z) (R := Z) (cType Lost.c) (cText Lost.c) (cUpper Lost.c) Lost.g RootNode T.
Proof.
  do 2 eexists. split; [apply tablesB_ok; vm_compute; reflexivity|]. split; [vm_compute; reflexivity|].
  intros T HT HD. inversion HD as [node nt t0 hooks results kids HZ HR]; subst. injection HZ as <-. cbn [gnFirst] in HR.
  destruct (Lost.run_words _ _ HR) as (ts & -> & HW). apply (f_equal (tokensOf 0)) in HT. cbn [trace] in HT.
  destruct (Lost.leaf_trace hooks ts) as (l & L1 & L2). rewrite L1 in HT. rewrite !tokensOf_app, creations_other, L2, !callsR_other in HT; try (intros; exact I).
  cbn [calls tokensOf flat_map app] in HT. match type of HT with ?a = _ => let v := eval vm_compute in a in change a with v in HT end.
  rewrite !app_nil_r in HT. assert (E : ts = [(0, 1); (1, 2); (2, 3); (2, 4)]) by (destruct (nth_error hooks 0) as [[|]|]; [symmetry; exact HT|discriminate|discriminate]).
  subst. vm_compute in HW. intuition discriminate.
Qed.

(** *** C29, C31: token hooks *)
Module Hooks.
  (** one layer with a hook for any token *)
  Definition layer (h : tokenHook (Tok := dTok) (Src := list dTok) (W := Z) (E := Z)) := [None; None; Some h].
  (** doubles every "b", drops the token 5 *)
  Definition doubling : tokenHook (Tok := dTok) (Src := list dTok) (W := Z) (E := Z) := fun t =>
    if fst t =? 1 then PRet true [(1, 100 + snd t)] None else if snd t =? 5 then PRet false [] None else PRet true [] None.
  Definition c := demo dGrammar [layer doubling; layer doubling] true false.
  Example flow : exists r s, parseFrom c 50 ([(0, 1); (1, 2); (4, 5); (2, 3); (3, 4)], 0) (0, 1) = Done r s /\
    forallb (fun ev => negb (failed ev)) (pLog s) = true /\
    somes (passed 2 (rev (pLog s))) = [(0, 1); (1, 2); (4, 5); (2, 3); (3, 4)] /\
    somes (passed 1 (rev (pLog s))) = [(0, 1); (1, 2); (1, 102); (2, 3); (3, 4)] /\
    somes (passed 0 (rev (pLog s))) = [(0, 1); (1, 2); (1, 102); (1, 102); (1, 202); (2, 3); (3, 4)].
  Proof. do 2 eexists. split; [vm_compute; reflexivity|]. repeat split; vm_compute; reflexivity. Qed.

  (** an error of a node hook: EndNode of node 1 *)
  Definition badMethods : methods dTok (list dTok) Z Z Z Z := mkMethods
    (fun i n t w => (w, None)) (fun i n x w => (w, None)) (fun i t w => (w, None)) (fun i w => (w, (None, if i =? 1 then Some 77 else None))).
  Definition cBad := let d := demo dGrammar [] true false in mkConfig (cType d) (cText d) (cUpper d) badMethods (cGrammar d) (cLexers d) (cLiterals d)
    (cTokenHooks d) (cNodeHooks d) (cCtx d) (cPassSides d) (cWatchNodes d) (cFullSource d) (cUnread d).
  Example node_error : exists s, endsIn (parseFrom cBad 50 (Example1.source, 0) (0, 1)) s /\ In (EvNodeFail 77) (pLog s).
  Proof. eexists. split; [vm_compute; reflexivity|]. left. reflexivity. Qed.

  (** fails at the first "b" it sees *)
  Definition failing : tokenHook (Tok := dTok) (Src := list dTok) (W := Z) (E := Z) := fun t =>
    if fst t =? 1 then PWorld (fun w => (fst w, snd w + 1)) (fun w => PRet true [] (if snd w =? 1 then Some 7 else None)) else PRet true [] None.
  Example token_error : gMultiRules dGrammar = [] /\ exists s, endsIn (parseFrom (demo dGrammar [layer failing] true false) 50 (Example1.source, 0) (0, 1)) s /\ In (EvFail 7) (pLog s).
  Proof. split; [reflexivity|]. eexists. split; [vm_compute; reflexivity|]. left. reflexivity. Qed.

End Hooks.
(** C31 refuted: an error met while looking ahead is lost, together with the token *)
Theorem token_hook_error_aborts_refuted : exists r s,
  tablesOk Example2.g /\
  parseFrom (demo Example2.g [Hooks.layer Hooks.failing] false false) 50 ([(0, 1); (1, 2); (1, 3)], 0) (0, 1) = Done r s /\
  In (EvFail 7) (pLog s) /\ tokensOf 0 (rev (pLog s)) = [(0, 1); (1, 3)].
Proof.
  do 2 eexists. split; [apply tablesB_ok; vm_compute; reflexivity|]. split; [vm_compute; reflexivity|].
  split; [vm_compute; auto 20|vm_compute; reflexivity].
Qed.
Print Assumptions hooks_well_nested.
Print Assumptions hooks_well_nested_prefix.
Print Assumptions tokens_delivered_once.
Print Assumptions tokens_from_source.
Print Assumptions parse_is_derivation_partial.
Print Assumptions parse_is_derivation_deterministic.
Print Assumptions hook_layers_preserve_order.
Print Assumptions special_tokens_survive.
Print Assumptions node_hook_error_aborts.
Print Assumptions token_hook_error_aborts_partial.
Print Assumptions full_source_to_the_end.
Print Assumptions full_source_is_the_tree.
Print Assumptions token_hook_error_aborts_refuted.
Print Assumptions parse_is_derivation_refuted.
