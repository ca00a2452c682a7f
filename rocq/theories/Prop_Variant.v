(** C75: of several ways to go on, the one that takes the longest run of tokens is preferred. *)
From Coq Require Import ZArith List Bool Lia Arith.
From Verif Require Import Base BaseProofs Grammar Rules RulesSpec Prop_Rules TablesCheck Parser ParserSpec ParserFlowSpec ParserDemo ParserProofs ParserInv ParserStream ParserLook LookLongest VariantSpec Variant.
Import ListNotations.
Open Scope Z_scope.

Section P.
Context {Tok Src W E Inst R : Type}.
Variable c : config Tok Src W E Inst R.
Notation g := (cGrammar c).
Notation variant := (variant (cType c) (cText c) (cUpper c) g).

(** When a conflict is resolved without overwriting branches, the rules chosen are a variant for
    the tokens read; no other variant takes more of these tokens; and if tokens are left,
    a variant that finishes the node is preferred to one that cannot go on. *)
Theorem longest_variant_partial fuel t s n ns tokens rules s' : tablesOk g -> pStack s = n :: ns ->
  resolveConflict c fuel t s = Done (tokens, rules) s' -> pLost s' = false ->
  (exists more, tokens = t :: more) /\
  exists k l, variant (nIndex n, nState n) tokens rules k l /\
    (forall rules' k' l', variant (nIndex n, nState n) tokens rules' k' l' -> (k' <= k)%nat) /\
    ((k < length tokens)%nat -> (exists rules', variant (nIndex n, nState n) tokens rules' k []) -> l = []).
Proof.
  intros TO HS H PL. destruct (resolveConflict_longest c fuel t s n ns (tokens, rules) s' H HS PL) as (_ & (ls & rem & B & MX & FI) & _ & more & EM). cbn [fst snd] in *.
  split; [eauto|]. destruct (variant_run c TO (bare n) tokens rules ls rem B) as (k & V & ER & LK). exists k, (map pr ls). change (nIndex n, nState n) with (pr (bare n)).
  split; [exact V|]. split.
  - intros rules' k' l' V'. destruct (run_variant c TO (bare n) tokens rules' k' l' V') as (ls' & B' & _ & LK'). specialize (MX _ _ _ B'). rewrite ER, !skipn_length in MX. lia.
  - intros LT (rules' & V'). destruct (run_variant c TO (bare n) tokens rules' k [] V') as (ls' & B' & EL & _). destruct ls'; [|discriminate].
    rewrite FI; [reflexivity| |].
    + intros X. rewrite ER in X. apply skip_all in X; [lia|exact LK].
    + exists rules'. rewrite ER. exact B'.
Qed.

(** Tokens are read until one variant (or none) can take them all, or the next token cannot be
    read, or no variant waits for a token. *)
Theorem lookahead_stops fuel t s n ns st tokens rules s' : tablesOk g -> pStack s = n :: ns -> zget (gStates g) (nState n) = Some st -> nTypes n = sTypes st ->
  resolveConflict c fuel t s = Done (tokens, rules) s' -> pLost s' = false ->
  (forall rules1 l1 rules2 l2, variant (nIndex n, nState n) tokens rules1 (length tokens) l1 -> variant (nIndex n, nState n) tokens rules2 (length tokens) l2 -> rules1 = rules2) \/
  (exists fuel types s1 e, nextToken c fuel types s1 = Fail e s') \/
  (forall rules1 m i l, variant (nIndex n, nState n) tokens rules1 (length tokens) ((m, i) :: l) -> exists st, zget (gStates g) i = Some st /\ sTypes st = 0).
Proof.
  intros TO HS ES ET H PL. destruct (resolveConflict_longest c fuel t s n ns (tokens, rules) s' H HS PL) as (_ & _ & ST & _). cbn [fst snd] in *.
  change (nIndex n, nState n) with (pr (bare n)).
  assert (ALL : forall rules1 l1, variant (pr (bare n)) tokens rules1 (length tokens) l1 -> exists ls, ParserLook.brun c [bare n] tokens rules1 ls [] /\ map pr ls = l1).
  { intros rules1 l1 V. destruct (run_variant c TO (bare n) tokens rules1 _ l1 V) as (ls & B & EL & _). rewrite skipn_all in B. eauto. }
  destruct ST as [ST|[ST|ST]]; cbn [fst] in ST.
  - left. intros rules1 l1 rules2 l2 V1 V2. destruct (ALL _ _ V1) as (ls1 & B1 & _). destruct (ALL _ _ V2) as (ls2 & B2 & _). eapply ST; eauto.
  - right. left. exact ST.
  - right. right. intros rules1 m i l V. destruct (ALL _ _ V) as ([|n1 ls] & B & EL); [discriminate|]. pose proof (ST _ _ _ B) as NT.
    destruct (typed_run c [bare n] tokens rules1 (n1 :: ls) []) as [TY TF]; [| |exact B|].
    + apply Forall_cons; [|constructor]. right. exists st. auto.
    + intros n2 r EE. injection EE as <- _. change (nState (bare n)) with (nState n). intros X. rewrite X in ES. discriminate.
    + cbn [map] in EL. assert (EI : nState n1 = i) by (change (snd (pr n1) = i); replace (pr n1) with (m, i) by congruence; reflexivity).
      destruct (Forall_inv TY) as [X|(st1 & X1 & X2)]; [destruct (TF _ _ eq_refl X)|]. exists st1. rewrite <- EI. split; [exact X1|congruence].
Qed.

(** a list of rules is one variant *)
Lemma variant_fun start ts rs k l : variant start ts rs k l -> forall k' l', variant start ts rs k' l' -> k' = k /\ l' = l.
Proof.
  intros V. induction V as [|rs k l t n i l1 r V IH NT OF M TK|rs k l t n i l1 r V IH NT OF M TK]; intros k' l' V'.
  - inversion V' as [|rs1 k1 l1 t1 n1 i1 l2 r1 V1 N1 O1 M1 T1 E1|rs1 k1 l1 t1 n1 i1 l2 r1 V1 N1 O1 M1 T1 E1]; [auto|destruct rs1; discriminate|destruct rs1; discriminate].
  - inversion V' as [E1|rs1 k1 l2 t1 n1 i1 l3 r1 V1 N1 O1 M1 T1 E1|rs1 k1 l2 t1 n1 i1 l3 r1 V1 N1 O1 M1 T1 E1]; [destruct rs; discriminate| |];
      apply app_inj_tail in E1 as [-> ->]; destruct (IH _ _ V1) as [-> EE]; injection EE as -> -> ->; rewrite NT in N1; injection N1 as <-.
    + split; [reflexivity|]. exact (moves_fun c _ _ _ _ M1 M).
    + contradiction.
  - inversion V' as [E1|rs1 k1 l2 t1 n1 i1 l3 r1 V1 N1 O1 M1 T1 E1|rs1 k1 l2 t1 n1 i1 l3 r1 V1 N1 O1 M1 T1 E1]; [destruct rs; discriminate| |];
      apply app_inj_tail in E1 as [-> ->]; destruct (IH _ _ V1) as [-> EE]; injection EE as -> -> ->; rewrite NT in N1; injection N1 as <-.
    + contradiction.
    + split; [reflexivity|]. exact (moves_fun c _ _ _ _ M1 M).
Qed.
End P.
Print Assumptions longest_variant_partial.
Print Assumptions lookahead_stops.

(** The language is "a b" and "a c d": two tokens are read, both variants are traced, only the second one
    takes them both. *)
Module Example1.
  Definition gr := mkGrammar [mkTok [97] [97] 0 0; mkTok [98] [98] 0 0; mkTok [99] [99] 0 0; mkTok [100] [100] 0 0] [] [mkNode [1] 0]
    [mkState 15 0 1 0 0; mkState 15 0 0 0 1; mkState 15 0 0 1 2; mkState 15 0 0 2 3] [mkMulti 0 3 5]
    [mkRule 1 (-1) (-1); mkRule 2 3 (-1); mkRule 3 (-1) (-1); mkRule 0 1 (-1); mkRule 0 2 (-1)].
  Definition c := demo gr [] true true.
  Definition n : nodeRec dTok Z := mkNodeRec [] [] 15 0 0.
  Definition s : pstate dTok (list dTok) Z Z Z Z := mkP ([(2, 2); (3, 3)], 0) [] [] [] None [n] [] false.
  Example chosen : tablesOk gr /\ exists s', resolveConflict c 20 (Some (0, 1)) s = Done ([Some (0, 1); Some (2, 2)], [mkRule 0 2 (-1); mkRule 2 3 (-1)]) s' /\ pLost s' = false.
  Proof. split; [apply tablesB_ok; vm_compute; reflexivity|]. eexists. split; [vm_compute; reflexivity|reflexivity]. Qed.
End Example1.

(** The full statement does not hold: branches overwritten in the shared array are not traced.
    The language is "a b d", "a b e", "a b c"; the tokens are "a b c", a variant takes all three of them and
    finishes the node, the one chosen takes two and the parse fails. *)
Module Lost.
  Definition gr := mkGrammar
    [mkTok [97] [97] 0 0; mkTok [98] [98] 0 0; mkTok [99] [99] 0 0; mkTok [100] [100] 0 0; mkTok [101] [101] 0 0] [] [mkNode [1] 0]
    [mkState 31 0 1 0 0; mkState 31 1 2 0 0; mkState 31 0 0 0 1; mkState 31 0 0 1 2; mkState 31 0 0 2 3; mkState 31 0 0 3 4]
    [mkMulti 0 4 6; mkMulti 1 6 8]
    [mkRule 1 5 (-1); mkRule 3 (-1) (-1); mkRule 4 (-1) (-1); mkRule 2 (-1) (-1);
     mkRule 0 1 (-1); mkRule 0 2 (-1); mkRule 1 3 (-1); mkRule 1 4 (-1)].
  Definition c := demo gr [] true true.
  Definition n : nodeRec dTok Z := mkNodeRec [] [] 31 0 0.
  Definition s : pstate dTok (list dTok) Z Z Z Z := mkP ([(1, 2); (2, 3)], 0) [] [] [] None [n] [] false.
  Definition ts : list (option dTok) := [Some (0, 1); Some (1, 2); Some (2, 3)].
  Lemma TO : tablesOk gr.
  Proof. apply tablesB_ok. vm_compute. reflexivity. Qed.
  Definition at_ i : list (nodeRec dTok Z) := [mkNodeRec [] [] 31 0 i].
  Lemma stp i t toks r st l cons ls' : zget (gStates gr) i = Some st -> Rules.findRules fst (fun _ => []) (fun x => x) gr t st = Some l -> In r l -> dryRule c t r (at_ i) = Some (cons, ls') ->
    ParserLook.step c (at_ i) (t :: toks) r ls' (if cons then toks else t :: toks).
  Proof. intros A1 A2 A3 A4. exact (ST c (mkNodeRec [] [] 31 0 i) [] t toks r st l cons ls' A1 A2 A3 A4). Qed.
  Lemma short : variant fst (fun _ => []) (fun x => x) gr (0, 0) ts [mkRule 0 1 (-1); mkRule 1 4 (-1)] 2 [(0, 4)].
  Proof.
    assert (B : ParserLook.brun c (at_ 0) ts [mkRule 0 1 (-1); mkRule 1 4 (-1)] (at_ 4) [Some (2, 3)]).
    { apply (B_snoc c _ _ [mkRule 0 1 (-1)] (at_ 1) [Some (1, 2); Some (2, 3)]); [apply (B_snoc c _ _ [] (at_ 0) ts); [apply B_nil|]|].
      - apply (stp 0 (Some (0, 1)) [Some (1, 2); Some (2, 3)] _ (mkState 31 0 1 0 0) [mkRule 0 1 (-1); mkRule 0 2 (-1)] true); try (vm_compute; reflexivity). cbn; auto.
      - apply (stp 1 (Some (1, 2)) [Some (2, 3)] _ (mkState 31 1 2 0 0) [mkRule 1 3 (-1); mkRule 1 4 (-1)] true); try (vm_compute; reflexivity). cbn; auto. }
    destruct (variant_run c TO _ _ _ _ _ B) as (k & V & ER & LK). destruct k as [|[|[|k]]]; try discriminate; [exact V|]. destruct k; discriminate.
  Qed.
  Lemma long : variant fst (fun _ => []) (fun x => x) gr (0, 0) ts [mkRule 0 2 (-1); mkRule 1 5 (-1); mkRule 2 (-1) (-1)] 3 [].
  Proof.
    assert (B : ParserLook.brun c (at_ 0) ts [mkRule 0 2 (-1); mkRule 1 5 (-1); mkRule 2 (-1) (-1)] [] []).
    { apply (B_snoc c _ _ [mkRule 0 2 (-1); mkRule 1 5 (-1)] (at_ 5) [Some (2, 3)]); [apply (B_snoc c _ _ [mkRule 0 2 (-1)] (at_ 2) [Some (1, 2); Some (2, 3)]); [apply (B_snoc c _ _ [] (at_ 0) ts); [apply B_nil|]|]|].
      - apply (stp 0 (Some (0, 1)) [Some (1, 2); Some (2, 3)] _ (mkState 31 0 1 0 0) [mkRule 0 1 (-1); mkRule 0 2 (-1)] true); try (vm_compute; reflexivity). cbn; auto.
      - apply (stp 2 (Some (1, 2)) [Some (2, 3)] _ (mkState 31 0 0 0 1) [mkRule 1 5 (-1)] true); try (vm_compute; reflexivity). cbn; auto.
      - apply (stp 5 (Some (2, 3)) [] _ (mkState 31 0 0 3 4) [mkRule 2 (-1) (-1)] true); try (vm_compute; reflexivity). cbn; auto. }
    destruct (variant_run c TO _ _ _ _ _ B) as (k & V & ER & LK). destruct k as [|[|[|[|k]]]]; try discriminate; [exact V|]. cbn in LK. lia.
  Qed.
End Lost.

Theorem longest_variant_refuted : exists (c : config dTok (list dTok) Z Z Z Z) fuel t s n tokens rules s',
  tablesOk (cGrammar c) /\ pStack s = [n] /\ resolveConflict c fuel t s = Done (tokens, rules) s' /\
  (exists rules' k', variant (cType c) (cText c) (cUpper c) (cGrammar c) (nIndex n, nState n) tokens rules' k' [] /\ k' = length tokens /\
    forall k l, variant (cType c) (cText c) (cUpper c) (cGrammar c) (nIndex n, nState n) tokens rules k l -> (k < k')%nat) /\
  exists e s'', parseFrom c 50 ([(0, 1); (1, 2); (2, 3)], 0) (0, 1) = Fail e s''.
Proof.
  exists Lost.c, 20%nat, (Some (0, 1)), Lost.s, Lost.n, Lost.ts, [mkRule 0 1 (-1); mkRule 1 4 (-1)]. eexists.
  split; [exact Lost.TO|]. split; [reflexivity|]. split; [vm_compute; reflexivity|]. split; [|eexists; eexists; vm_compute; reflexivity].
  exists [mkRule 0 2 (-1); mkRule 1 5 (-1); mkRule 2 (-1) (-1)], 3%nat. split; [exact Lost.long|]. split; [reflexivity|].
  intros k l V. destruct (variant_fun Lost.c _ _ _ _ _ Lost.short k l V) as [-> _]. lia.
Qed.
Print Assumptions longest_variant_refuted.
