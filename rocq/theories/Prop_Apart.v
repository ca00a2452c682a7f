(** C78: when conflicts stand apart, the lookahead is exact, and what is proved for parses in which it is holds for all parses. *)
From Coq Require Import ZArith List Bool Lia Arith.
From Verif Require Import Base BaseProofs Grammar Rules RulesSpec Prop_Rules TablesCheck SafeCheck IdleCheck Parser ParserSpec ParserSafeSpec ParserFlowSpec ParserTermSpec ParserDemo ParserProofs ParserInv ParserLook ParserTerm LookLongest VariantSpec Variant PredictSpec Prop_Parser Prop_ParserSafe Prop_ParserTerm Prop_Variant StarSpec StarRun Star StarDemo Prop_Star ApartSpec Apart ApartCheck.
Import ListNotations.
Open Scope Z_scope.

Section S.
Context {Tok Src W E Inst R : Type}.
Variable c : config Tok Src W E Inst R.
Notation g := (cGrammar c).
Notation variant := (variant (cType c) (cText c) (cUpper c) g).
Notation history s := (rev (pLog s)).
Notation hooked := (hookedIn (cNodeHooks c)).
Notation trace := (ParserSpec.trace (Tok:=Tok) (E:=E) (Inst:=Inst) (R:=R) hooked).
Notation derived := (ParserSpec.derived (Inst:=Inst) (R:=R) (cType c) (cText c) (cUpper c) g).

(** A successful parse is a derivation of the grammar (C27, without a condition on the run). *)
Theorem apart_derivation fuel w t0 r s : tablesOk g -> once c -> apart c -> parseFrom c fuel w t0 = Done r s ->
  exists T unused, derived RootNode T /\ nodeEvents (history s) = trace [] T /\
    somes (ParserSpec.nexts (history s)) = leaves T ++ unused /\ (length unused <= 1)%nat.
Proof.
  intros TO ON AP H. pose proof (parseFrom_stays c TO ON AP fuel w t0) as PL. rewrite H in PL. eapply parse_is_derivation_partial; eauto.
Qed.

(** A parse ends (C28, without a condition on the run). *)
Theorem apart_terminates size w t0 : tablesOk g -> once c -> apart c ->
  noIdleLoop g -> finiteSource c size -> addsNothing c size -> cTokenHooks c = [] ->
  exists bound x, (forall s, x <> NoFuel s) /\ forall fuel, (bound <= fuel)%nat -> parseFrom c fuel w t0 = x.
Proof.
  intros TO ON AP NL FS AN N0. destruct (parse_terminates_partial c size w t0) as (N & HN); auto.
  assert (HA : forall s, parseFrom c N w t0 <> NoFuel s).
  { intros s HX. pose proof (HN N (le_n N) s HX) as HL. pose proof (parseFrom_stays c TO ON AP N w t0) as U. rewrite HX in U. congruence. }
  exists N, (parseFrom c N w t0). split; auto. intros fuel HF. apply parse_bound_irrelevant; auto.
Qed.

(** The variant chosen takes the longest run of tokens, one that finishes the node is preferred (C75, without a condition on the run). *)
Theorem apart_longest fuel t s n ns tokens rules s' : tablesOk g -> once c -> apart c -> pStack s = n :: ns -> conflict c t (nState n) -> pLost s = false ->
  resolveConflict c fuel t s = Done (tokens, rules) s' ->
  (exists more, tokens = t :: more) /\
  exists k l, variant (nIndex n, nState n) tokens rules k l /\
    (forall rules' k' l', variant (nIndex n, nState n) tokens rules' k' l' -> (k' <= k)%nat) /\
    ((k < length tokens)%nat -> (exists rules', variant (nIndex n, nState n) tokens rules' k []) -> l = []).
Proof.
  intros TO ON AP ES CF PL H. pose proof (resolve_stays c TO ON AP fuel t s n ns ES CF) as ST. rewrite H in ST. cbn in ST. eapply longest_variant_partial; eauto.
Qed.

(** An input for which the longest variant is the right one at each conflict is accepted (C77, without a condition on the run). *)
Theorem apart_accepts view eoi src w t0 root rs :
  plainSetting c view eoi -> once c -> apart c -> zget (gNodes g) RootNode = Some root ->
  reading c view eoi (gnFirst root) src rs -> decided c view eoi (gnFirst root) src rs ->
  exists bound x s, forall fuel, (bound <= fuel)%nat -> parseFrom c fuel (src, w) t0 = Done x s.
Proof.
  intros PS ON AP GR RD DC. pose proof (go_tables _ (st_grammar _ (pl_setting _ _ _ PS))) as TO.
  destruct (right_way_is_followed_partial c view eoi src w t0 root rs PS GR RD DC) as (N & HN).
  pose proof (HN N (le_n N)) as H. pose proof (parseFrom_stays c TO ON AP N (src, w) t0) as U.
  destruct (parseFrom c N (src, w) t0) as [x s|e s| |s] eqn:EP; try congruence; [|contradiction].
  exists N, x, s. intros fuel LE. rewrite <- EP. apply parse_bound_irrelevant; [exact LE|]. intros s' X. congruence.
Qed.

(** Tables can be checked: variants of each conflict are traced, for tokens that stand for all others, until one of them is left. *)
Theorem apart_checked reps fuel : tablesOk g -> (forall t, exists r, In r reps /\ like c t r) -> apartB c reps fuel = true -> apart c.
Proof. intros TO RP H. exact (apartB_ok c TO reps RP fuel H). Qed.
End S.
Print Assumptions apart_derivation.
Print Assumptions apart_terminates.
Print Assumptions apart_longest.
Print Assumptions apart_accepts.
Print Assumptions apart_checked.

(** "{ a b | a c d } e", the parts being nodes in the second grammar; conflicts are met again and again *)
Module Example1.
  Import Prop_Star.Example1.
  Definition reps (g : grammar) : list (option dTok) := None :: Some dEoi :: map (fun i => Some (Z.of_nat i, 0)) (seq 0 (length (gTokens g))).
  Lemma reps_ok g t : exists r, In r (reps g) /\ like (conf g) t r.
  Proof.
    destruct t as [t|]; [|exists None; split; [left; reflexivity|]; split; [tauto|reflexivity]].
    assert (X : exists r, In (Some r) (reps g) /\ kType (zlen (gTokens g)) t = kType (zlen (gTokens g)) r).
    { destruct ((0 <=? fst t) && (fst t <? zlen (gTokens g))) eqn:EB.
      - exists (fst t, 0). split; [|reflexivity]. right. right. apply andb_true_iff in EB as [E1 E2]. apply Z.leb_le in E1. apply Z.ltb_lt in E2. unfold zlen in E2.
        apply in_map_iff. exists (Z.to_nat (fst t)). split; [rewrite Z2Nat.id by lia; reflexivity|]. apply in_seq. lia.
      - exists dEoi. split; [right; left; reflexivity|]. unfold kType. rewrite EB. reflexivity. }
    destruct X as (r & HI & EK). exists (Some r). split; [exact HI|]. split; [split; discriminate|]. intros i st _.
    unfold findRules, isSideToken, possibleRuleKeys. cbn [conf cType cText cUpper cGrammar demo]. rewrite EK. reflexivity.
  Qed.
  Definition gr := mkGrammar
    [mkTok [97] [97] 0 0; mkTok [98] [98] 0 0; mkTok [99] [99] 0 0; mkTok [100] [100] 0 0; mkTok [101] [101] 0 0] [] [mkNode [1] 0]
    [mkState 31 0 1 0 1; mkState 31 0 0 1 2; mkState 31 0 0 2 3; mkState 31 0 0 3 4] [mkMulti 0 4 6]
    [mkRule 4 (-1) (-1); mkRule 1 0 (-1); mkRule 2 3 (-1); mkRule 3 0 (-1); mkRule 0 1 (-1); mkRule 0 2 (-1)].
  Lemma TO : tablesOk gr.
  Proof. apply tablesB_ok. vm_compute. reflexivity. Qed.
  Example is_once : once (conf gr).
  Proof.
    intros m rs [<-|[]] H. vm_compute in H. injection H as <-. constructor; [intros [X|[]]; discriminate|]. constructor; [intros []|constructor].
  Qed.
  Example is_apart : apart (conf gr).
  Proof. apply (apart_checked (conf gr) (reps gr) 10 TO (reps_ok gr)). vm_compute. reflexivity. Qed.
  Example is_plain : plainSetting (conf gr) vw dEoi.
  Proof. apply (conf_plain gr (fun _ => O) [-1]); vm_compute; reflexivity. Qed.
  Definition src : list dTok := [(0, 1); (2, 2); (3, 3); (0, 4); (1, 5); (4, 6)].
  Definition way := [mkRule 0 2 (-1); mkRule 2 3 (-1); mkRule 3 0 (-1); mkRule 0 1 (-1); mkRule 1 0 (-1); mkRule 4 (-1) (-1)].
  Example can_be_read : reading (conf gr) vw dEoi 0 src way.
  Proof.
    apply (reading_runs (conf gr) vw dEoi TO 0 31 src way [Some dEoi]); [|repeat constructor].
    repeat (eapply brun_cons; [apply nexts_step; vm_compute; auto|]). apply B_nil.
  Qed.
  Example is_decided : decided (conf gr) vw dEoi 0 src way.
  Proof.
    apply (decided_runs (conf gr) vw dEoi TO 0 31). intros m rs1 rs2 n ls t rem EA B CR rsa rsb mid ER BA rs' l' rem' BB.
    assert (EI : input (conf gr) vw dEoi src m = map Some src ++ @ends dTok dEoi m) by reflexivity. rewrite EI in B. clear EI. generalize dependent (@ends dTok dEoi m). intros X B. cbn [src map app] in B.
    check (conf gr) B BA BB.
  Qed.
  Example accepted w : exists bound x s, forall fuel, (bound <= fuel)%nat -> parseFrom (conf gr) fuel (src, w) (0, 1) = Done x s.
  Proof. eapply (apart_accepts (conf gr) vw dEoi src w (0, 1)); [exact is_plain|exact is_once|exact is_apart|reflexivity|exact can_be_read|exact is_decided]. Qed.
  (** the grammar in which a valid text is refused (C75, C77) is found *)
  Example not_apart : apartB (conf Prop_Star.Example2.gr) (reps Prop_Star.Example2.gr) 10 = false.
  Proof. vm_compute. reflexivity. Qed.
  Example really_not_apart : ~ apart (conf Prop_Star.Example2.gr).
  Proof.
    intros AP. assert (ON : once (conf Prop_Star.Example2.gr)).
    { intros m rs [<-|[<-|[]]] H; vm_compute in H; injection H as <-; (constructor; [intros [X|[]]; discriminate|]; constructor; [intros []|constructor]). }
    pose proof (parseFrom_stays (conf Prop_Star.Example2.gr) Prop_Star.Example2.TO ON AP 50 (Prop_Star.Example2.src, 0) (0, 1)) as X. vm_compute in X. discriminate.
  Qed.
End Example1.
