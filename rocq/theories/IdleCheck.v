(** A check that the state machines of a grammar have no idle loops. *)
From Coq Require Import ZArith List Bool Lia Arith Relations.
From Verif Require Import Base BaseProofs Grammar Rules RulesSpec Parser ParserSpec ParserTermSpec ParserIdle.
Import ListNotations.
Open Scope Z_scope.

Section G.
Variable g : grammar.
(** numbers that grow smaller with each idle move, and states that can be at the end of a node *)
Variable rank : Z -> nat.
Variable empties : list Z.
Definition mem (i : Z) : bool := existsb (Z.eqb i) empties.
Definition idleRuleB (i : Z) (r : rule) : bool :=
  if rNode r =? SameNode then
    if (rToken r =? AnyToken) || (rToken r =? EoiTokenType)
    then (negb (mem (rState r)) || mem i) && (rank (rState r) <? rank i)%nat else true
  else match zget (gNodes g) (rNode r) with
       | None => true
       | Some nt => (negb (mem (gnFirst nt) && mem (rState r)) || mem i) && (negb (mem (gnFirst nt)) || (rank (rState r) <? rank i)%nat) && (rank (gnFirst nt) <? rank i)%nat
       end.
Definition rulesAt (i : Z) : list rule :=
  match zget (gStates g) i with
  | None => []
  | Some st => match zslice (gRules g) (sLow st) (sHigh st), zslice (gMultiRules g) (sLowMulti st) (sHighMulti st) with
               | Some rules, Some multi => rules ++ flat_map (fun m => match zslice (gRules g) (mLow m) (mHigh m) with Some rs => rs | None => [] end) multi
               | _, _ => []
               end
  end.
Lemma rulesAt_ok i r : ruleOf g i r -> In r (rulesAt i).
Proof.
  intros (st & rules & multi & rs & A & B & C & D & F). unfold rulesAt. rewrite A, B, C. apply in_app_iff. destruct D as [r' D1 D2|m rs' D1 D2 D3].
  - destruct F as [<-|[]]. auto.
  - right. apply in_flat_map. exists m. split; auto. rewrite D3. auto.
Qed.
Definition idleB : bool := mem FinalState && forallb (fun i => forallb (idleRuleB i) (rulesAt i)) (allStates g).
Hypothesis OK : idleB = true.
Lemma idleRule i r : ruleOf g i r -> idleRuleB i r = true.
Proof.
  intros H. unfold idleB in OK. apply andb_true_iff in OK as [_ X]. rewrite forallb_forall in X. destruct (ruleOf_state _ _ _ H) as (st & HS).
  specialize (X i (state_In g i st HS)). rewrite forallb_forall in X. apply X. apply rulesAt_ok. auto.
Qed.
Lemma skip_ok i r : ruleOf g i r -> readsNothing r -> (mem (rState r) = true -> mem i = true) /\ (rank (rState r) < rank i)%nat.
Proof.
  intros H HR. destruct HR as [N T]. pose proof (idleRule i r H) as X. unfold idleRuleB in X. rewrite N, Z.eqb_refl in X.
  replace ((rToken r =? AnyToken) || (rToken r =? EoiTokenType)) with true in X.
  2: { symmetry; apply orb_true_iff. destruct T as [T|T]; rewrite T; [left|right]; apply Z.eqb_refl. }
  apply andb_true_iff in X as [X1 X2]. apply Nat.ltb_lt in X2. split; auto. intros Y. rewrite Y in X1. auto.
Qed.
Lemma node_ok i r nt : ruleOf g i r -> opens g r nt -> (mem (gnFirst nt) = true -> mem (rState r) = true -> mem i = true) /\
  (mem (gnFirst nt) = true -> (rank (rState r) < rank i)%nat) /\ (rank (gnFirst nt) < rank i)%nat.
Proof.
  intros H [N T]. pose proof (idleRule i r H) as X. unfold idleRuleB in X. apply Z.eqb_neq in N. rewrite N, T in X.
  apply andb_true_iff in X as [X X3]. apply andb_true_iff in X as [X1 X2]. apply Nat.ltb_lt in X3. split; [|split]; auto.
  - intros A B. rewrite A, B in X1. auto.
  - intros A. rewrite A in X2. apply Nat.ltb_lt. auto.
Qed.
Lemma empty_ok i : canBeEmpty g i -> mem i = true.
Proof.
  induction 1 as [|i r H1 H2 _ IH|i r nt H1 H2 _ IH1 _ IH2].
  - unfold idleB in OK. apply andb_true_iff in OK as [X _]. auto.
  - apply (skip_ok i r); auto.
  - apply (node_ok i r nt); auto.
Qed.
Lemma idleB_ok : noIdleLoop g.
Proof.
  assert (HS : forall i j, idle g i j -> (rank j < rank i)%nat).
  { intros i j [i' r H1 H2|i' r nt H1 H2 H3|i' r nt H1 H2].
    - apply (skip_ok i' r); auto.
    - apply (node_ok i' r nt); auto. apply empty_ok. auto.
    - apply (node_ok i' r nt); auto. }
  assert (HT : forall i j, clos_trans Z (idle g) i j -> (rank j < rank i)%nat) by (induction 1; [auto|lia]).
  intros i H. apply HT in H. lia.
Qed.
End G.
