(** Moves that read nothing come to an end. *)
From Coq Require Import ZArith List Bool Lia Arith Relations Wellfounded.
From Verif Require Import Base BaseProofs Grammar RulesSpec Parser ParserSpec ParserLook ParserTermSpec.
Import ListNotations.
Open Scope Z_scope.

(** A relation without cycles is well founded if it leads only from items of a list. *)
Lemma acyclic_wf {A} (dec : forall a b : A, {a = b} + {a <> b}) (rel : A -> A -> Prop) (all : list A) :
  (forall x y, rel x y -> In x all) -> (forall x, ~ clos_trans A rel x x) -> well_founded (fun y x => rel x y).
Proof.
  intros HA HC.
  assert (H : forall n visited i, NoDup visited -> incl visited all -> (forall x, In x visited -> clos_trans A rel x i) -> (length all < length visited + n)%nat -> Acc (fun y x => rel x y) i).
  { induction n as [|n IH]; intros visited i ND IN TR HN.
    - exfalso. pose proof (NoDup_incl_length ND IN). lia.
    - constructor. intros j HR. apply (IH (i :: visited)).
      + constructor; auto. intros X. apply (HC i). apply TR. auto.
      + intros x [<-|X]; [eapply HA; eauto|apply IN; auto].
      + intros x [<-|X]; [apply t_step; auto|]. eapply t_trans; [apply TR; auto|apply t_step; auto].
      + cbn [length]. lia. }
  intros i. apply (H (S (length all)) []); [constructor|intros x []|intros x []|cbn; lia].
Qed.

Section P.
Variable g : grammar.
Notation ruleOf := (ruleOf g).

Lemma ruleOf_state i r : ruleOf i r -> exists st, zget (gStates g) i = Some st.
Proof. intros (st & _ & _ & _ & H & _). eauto. Qed.
Lemma ruleOf_In i r : ruleOf i r -> In r (gRules g).
Proof.
  intros (st & rules & multi & rs & A & B & C & D & F). destruct D as [r' D1 D2|m rs' D1 D2 D3].
  - destruct F as [<-|[]]. eapply zslice_In; eauto.
  - eapply zslice_In; eauto.
Qed.
Lemma nth_error_len {A} (l : list A) n x : nth_error l n = Some x -> (n < length l)%nat.
Proof. intros H. apply nth_error_Some. congruence. Qed.
Definition allStates : list Z := map Z.of_nat (seq 0 (length (gStates g))).
Lemma state_In i st : zget (gStates g) i = Some st -> In i allStates.
Proof.
  intros H. apply zget_Some_inv in H as (H & H2). unfold zlen in H2. unfold allStates. apply in_map_iff. exists (Z.to_nat i). split; [lia|].
  apply in_seq. lia.
Qed.
Lemma idle_state i j : idle g i j -> In i allStates.
Proof. intros [i' r H|i' r nt H|i' r nt H]; destruct (ruleOf_state _ _ H) as (st & S1); eapply state_In; eauto. Qed.
Lemma idle_wf : noIdleLoop g -> well_founded (fun j i => idle g i j).
Proof. intros H. apply (acyclic_wf Z.eq_dec _ allStates); auto. apply idle_state. Qed.

(** ** Stacks of states *)
Fixpoint popZ (l : list Z) : list Z := match l with [] => [] | i :: r => if i =? FinalState then popZ r else l end.
Inductive move (i : Z) (rest : list Z) (r : rule) : list Z -> Prop :=
| MV_same : ruleOf i r -> readsNothing r -> move i rest r (popZ (rState r :: rest))
| MV_push nt : ruleOf i r -> opens g r nt -> move i rest r (popZ (gnFirst nt :: rState r :: rest)).
Definition sstep (x y : list Z) : Prop := match x with [] => False | i :: rest => exists r, move i rest r y end.

Hypothesis NL : noIdleLoop g.
Notation AC := (Acc (fun y x => sstep x y)).
Lemma acc_push : forall i rest, (canBeEmpty g i -> AC (popZ rest)) -> AC (popZ (i :: rest)).
Proof.
  intros i. induction (idle_wf NL i) as [i _ IH]. intros rest HE. cbn [popZ]. destruct (Z.eqb_spec i FinalState) as [->|NF]; [apply HE; constructor|].
  constructor. intros y (r & [HR RN|nt HR HO]).
  - apply IH; [apply ID_skip; auto|]. intros X. apply HE. eapply CE_skip; eauto.
  - apply IH; [eapply ID_into; eauto|]. intros X. apply IH; [eapply ID_over; eauto|]. intros Y. apply HE. eapply CE_node; eauto.
Qed.
Lemma acc_pop l : AC (popZ l).
Proof. induction l as [|i l IH]; [constructor; intros y []|]. apply acc_push. auto. Qed.
Lemma sstep_wf : well_founded (fun y x => sstep x y).
Proof.
  intros l. constructor. intros y H. destruct l as [|i rest]; [destruct H|]. destruct H as (r & [HR RN|nt HR HO]); apply acc_pop.
Qed.

(** ** The number of moves is bounded. *)
Fixpoint depthLe (n : nat) (x : list Z) : Prop :=
  match n with O => forall y, ~ sstep x y | S m => forall y, sstep x y -> depthLe m y end.
Lemma depth_mono : forall n m x, (n <= m)%nat -> depthLe n x -> depthLe m x.
Proof.
  induction n as [|n IH]; intros m x HM HD.
  - destruct m; auto. cbn in *. intros y HY. destruct (HD y HY).
  - destruct m; [lia|]. cbn in *. intros y HY. apply (IH m y); [lia|auto].
Qed.
Lemma move_det i rest r y y' : move i rest r y -> move i rest r y' -> y = y'.
Proof.
  intros [A B|nt A B] [A' B'|nt' A' B']; auto.
  - destruct B, B'. congruence.
  - destruct B, B'. congruence.
  - destruct B as [B1 B2], B' as [B3 B4]. rewrite B2 in B4. injection B4 as <-. auto.
Qed.
Lemma rule_dec (a b : rule) : {a = b} + {a <> b}. Proof. decide equality; apply Z.eq_dec. Qed.
Lemma ruleOf_dec i r : ruleOf i r \/ ~ ruleOf i r.
Proof.
  destruct (zget (gStates g) i) as [st|] eqn:E1; [|right; intros (st & a & b & d & H & _); congruence].
  destruct (zslice (gRules g) (sLow st) (sHigh st)) as [rules|] eqn:E2; [|right; intros (st' & a & b & d & H & H2 & _); congruence].
  destruct (zslice (gMultiRules g) (sLowMulti st) (sHighMulti st)) as [multi|] eqn:E3; [|right; intros (st' & a & b & d & H & H2 & H3 & _); congruence].
  destruct (in_dec rule_dec r rules) as [H|H].
  - left. exists st, rules, multi, [r]. do 3 (split; auto). split; [constructor; auto|left; auto].
  - destruct (Exists_dec (fun m => mToken m = rToken r /\ exists rs, zslice (gRules g) (mLow m) (mHigh m) = Some rs /\ In r rs) multi) as [X|X].
    + intros m. destruct (Z.eq_dec (mToken m) (rToken r)) as [Y|Y]; [|right; tauto].
      destruct (zslice (gRules g) (mLow m) (mHigh m)) as [rs|]; [|right; intros (_ & rs & Z1 & _); discriminate].
      destruct (in_dec rule_dec r rs) as [Z1|Z1]; [left; eauto|right; intros (_ & rs' & A & B); injection A as <-; auto].
    + left. apply Exists_exists in X as (m & X1 & X2 & rs & X3 & X4). exists st, rules, multi, rs. do 3 (split; auto). split; auto. econstructor 2; eauto.
    + right. intros (st' & a & b & d & A & B & C & D & F). rewrite E1 in A. injection A as <-. rewrite E2 in B. injection B as <-. rewrite E3 in C. injection C as <-.
      destruct D as [r' D1 D2|m rs D1 D2 D3].
      * destruct F as [<-|[]]. auto.
      * apply X. apply Exists_exists. exists m. split; auto. split; auto. exists rs. auto.
Qed.
Lemma depth_ex x : exists n, depthLe n x.
Proof.
  induction (sstep_wf x) as [x _ IH]. destruct x as [|i rest]; [exists O; intros y []|].
  assert (H : forall rs, exists n, forall r y, In r rs -> move i rest r y -> depthLe n y).
  { induction rs as [|r rs (n & IHr)]; [exists O; intros r y []|].
    assert (X : exists m, forall y, move i rest r y -> depthLe m y).
    { assert (DEC : (exists y, move i rest r y) \/ ~ exists y, move i rest r y).
      { destruct (ruleOf_dec i r) as [HR|HR]; [|right; intros (y & [A B|nt A B]); auto].
        destruct (Z.eq_dec (rNode r) SameNode) as [ES|NS].
        - destruct (Z.eq_dec (rToken r) AnyToken) as [T1|T1]; [left; eexists; apply MV_same; auto; split; auto|].
          destruct (Z.eq_dec (rToken r) EoiTokenType) as [T2|T2]; [left; eexists; apply MV_same; auto; split; auto|].
          right. intros (y & [A [B1 B2]|nt A [B1 B2]]); tauto.
        - destruct (zget (gNodes g) (rNode r)) as [nt|] eqn:EN; [left; eexists; eapply MV_push; eauto; split; eauto|].
          right. intros (y & [A [B1 B2]|nt A [B1 B2]]); congruence. }
      destruct DEC as [(y & HY)|NO]; [|exists O; intros y HY; destruct NO; eauto].
      destruct (IH y) as (m & HM); [exists r; auto|]. exists m. intros y' HY'. rewrite (move_det _ _ _ _ _ HY' HY). auto. }
    destruct X as (m & HM). exists (n + m)%nat. intros r' y [<-|HI] HY.
    - apply (depth_mono m); [lia|auto].
    - apply (depth_mono n); [lia|eauto]. }
  destruct (H (gRules g)) as (n & HN). exists (S n). intros y (r & HM). apply (HN r); auto. destruct HM as [A B|nt A B]; eapply ruleOf_In; eauto.
Qed.
End P.
