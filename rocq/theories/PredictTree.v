(** Proofs: the machine with a stack accepts the tokens of a tree. *)
From Coq Require Import ZArith List Bool Lia Arith.
From Verif Require Import Base BaseProofs Grammar Rules RulesSpec Prop_Rules Parser ParserSpec ParserSafeSpec ParserFlowSpec PredictSpec Predict.
Import ListNotations.
Open Scope Z_scope.

Section P.
Context {Tok Src W E Inst R : Type}.
Variable c : config Tok Src W E Inst R.
Notation g := (cGrammar c).
Notation core := (core c).
Notation ruleOf := (ruleOf g).
Notation run := (run (Inst := Inst) (R := R) (cType c) (cText c) (cUpper c) g).
Notation derived := (derived (Inst := Inst) (R := R) (cType c) (cText c) (cUpper c) g).
Notation tree := (tree Tok Inst R).
Notation acc := (acc c).

Scheme run_mut := Induction for ParserSpec.run Sort Prop
with derived_mut := Induction for ParserSpec.derived Sort Prop.
Combined Scheme run_derived from run_mut, derived_mut.

Variable lexed : Tok -> Prop.
Hypothesis CR : coreRules c lexed.
Hypothesis NR : nodeRules c lexed.

Lemma leavesL_snoc (ks : list tree) k : leavesL (ks ++ [k]) = leavesL ks ++ leaves k.
Proof. unfold leavesL. rewrite map_app, concat_app. cbn. rewrite app_nil_r. reflexivity. Qed.
Lemma leaves_node n t0 hooks results (kids : list tree) : leaves (Node n t0 hooks results kids) = leavesL kids.
Proof. cbn. unfold leavesL. induction kids as [|k kids IH]; [reflexivity|]. cbn. rewrite IH. reflexivity. Qed.
Lemma settle_rule n j S r : ruleOf j r -> settle ((n, j) :: S) = (n, j) :: S.
Proof.
  intros (st & rules & multi & rs & G & _). cbn. destruct (Z.eqb_spec j FinalState) as [->|]; [discriminate|reflexivity].
Qed.
Lemma runs_acc :
  (forall i ks j, run i ks j -> (forall t, In t (leavesL ks) -> lexed t) -> forall n S u, acc (settle ((n, j) :: S)) u -> acc (settle ((n, i) :: S)) (filter core (leavesL ks) ++ u)) /\
  (forall node T, derived node T -> exists nt, zget (gNodes g) node = Some nt /\
    ((forall t, In t (leaves T) -> lexed t) -> forall S u, acc (settle S) u -> acc (settle ((node, gnFirst nt) :: S)) (filter core (leaves T) ++ u))).
Proof.
  apply (run_derived Tok Inst R (cType c) (cText c) (cUpper c) g
    (fun i ks j _ => (forall t, In t (leavesL ks) -> lexed t) -> forall n S u, acc (settle ((n, j) :: S)) u -> acc (settle ((n, i) :: S)) (filter core (leavesL ks) ++ u))
    (fun node T _ => exists nt, zget (gNodes g) node = Some nt /\ ((forall t, In t (leaves T) -> lexed t) -> forall S u, acc (settle S) u -> acc (settle ((node, gnFirst nt) :: S)) (filter core (leaves T) ++ u)))).
  - intros i _ n S u A. exact A.
  - intros i ks j t RN IH SD LX n S u A. rewrite leavesL_snoc in *. rewrite filter_app. cbn [leaves filter].
    destruct SD as (t' & X & (d & G & F)). injection X as <-. assert (CO : core t = false). { unfold PredictSpec.core, sideToken. rewrite G, F. reflexivity. }
    rewrite CO, app_nil_r. apply IH; [intros x I; apply LX, in_or_app; auto|exact A].
  - intros i ks j t r RN IH RU SN RD TM LX n S u A. rewrite leavesL_snoc in *. rewrite filter_app. cbn [leaves filter].
    rewrite (CR j r t RU RD (LX t ltac:(apply in_or_app; right; left; reflexivity)) TM), <- app_assoc. apply IH; [intros x I; apply LX, in_or_app; auto|].
    rewrite (settle_rule n j S r RU). cbn [app]. eapply A_token; eassumption.
  - intros i ks j r RN IH RU SN RA LX n S u A. apply IH; [exact LX|]. rewrite (settle_rule n j S r RU). eapply A_skip; eassumption.
  - intros i ks j r T' RN IH RU SN D' IHD LX n S u A. rewrite leavesL_snoc in *. rewrite filter_app, <- app_assoc. apply IH; [intros x I; apply LX, in_or_app; auto|].
    assert (LT : forall t, In t (leaves T') -> lexed t) by (intros x I; apply LX, in_or_app; auto). rewrite (settle_rule n j S r RU).
    destruct IHD as (nt & G & H). specialize (H LT ((n, rState r) :: S) u A). pose proof (nr_some _ _ NR j r T' RU SN D' LT) as NS.
    destruct (filter core (leaves T')) as [|t v] eqn:F; [congruence|]. destruct (nr_first _ _ NR j r T' t v RU SN D' LT F) as (r' & RU' & N' & S' & RD' & TM').
    cbn [app] in *. eapply A_node with (r := r') (nt := nt); [exact RU'|exact RD'|congruence|exact TM'|congruence|].
    assert (SE : settle ((rNode r, gnFirst nt) :: (n, rState r) :: S) = (rNode r', gnFirst nt) :: (n, rState r') :: S \/ gnFirst nt = FinalState).
    { cbn [settle]. rewrite N', S'. destruct (Z.eqb_spec (gnFirst nt) FinalState); auto. }
    destruct SE as [<-|X]; [exact H|]. inversion D' as [? nt' t0 hooks results kids G' RN' E1 E2]; subst. rewrite G in G'. injection G' as <-. rewrite X in RN'.
    exfalso. assert (KE : forall ks' a b, run a ks' b -> a = FinalState -> b = FinalState /\ forall k, In k ks' -> exists t, k = Leaf t /\ core t = false).
    { clear. induction 1 as [i|i ks j t RN IH SD|i ks j t r RN IH RU SN RD TM|i ks j r RN IH RU SN RA|i ks j r T RN IH RU SN DD]; intros X.
      - split; [exact X|intros k []].
      - destruct (IH X) as (A & B). split; [exact A|]. intros k I. apply in_app_or in I. destruct I as [I|[<-|[]]]; [apply B, I|]. exists t. split; [reflexivity|].
        destruct SD as (t' & Y & (d & G & F)). injection Y as <-. unfold PredictSpec.core, sideToken. rewrite G, F. reflexivity.
      - destruct (IH X) as (-> & _). destruct RU as (st & ? & ? & ? & G & _). discriminate.
      - destruct (IH X) as (-> & _). destruct RU as (st & ? & ? & ? & G & _). discriminate.
      - destruct (IH X) as (-> & _). destruct RU as (st & ? & ? & ? & G & _). discriminate. }
    destruct (KE _ _ _ RN' eq_refl) as (_ & AL). rewrite leaves_node in F. clear -AL F. revert t v F. induction kids as [|k kids IH]; intros t v F; [discriminate|].
    destruct (AL k (or_introl eq_refl)) as (x & -> & CO). unfold leavesL in F. cbn in F. rewrite CO in F. eapply IH; [intros k I; apply AL; right; exact I|exact F].
  - intros node' nt t0 hooks results kids G RN IH. exists nt. split; [exact G|]. intros LX S u A. rewrite leaves_node in *. apply IH; assumption.
Qed.
Lemma derived_acc node T : derived node T -> exists nt, zget (gNodes g) node = Some nt /\
  ((forall t, In t (leaves T) -> lexed t) -> forall S u, acc (settle S) u -> acc (settle ((node, gnFirst nt) :: S)) (filter core (leaves T) ++ u)).
Proof. apply runs_acc. Qed.
Lemma run_acc i ks : run i ks FinalState -> (forall t, In t (leavesL ks) -> lexed t) -> forall n S u, acc (settle S) u -> acc (settle ((n, i) :: S)) (filter core (leavesL ks) ++ u).
Proof. intros RN LX n S u A. exact (proj1 runs_acc i ks FinalState RN LX n S u A). Qed.
Theorem tree_acc T : derived RootNode T -> (forall t, In t (leaves T) -> lexed t) -> exists nt, zget (gNodes g) RootNode = Some nt /\ acc (settle [(RootNode, gnFirst nt)]) (filter core (leaves T)).
Proof.
  intros D LX. destruct (derived_acc _ _ D) as (nt & G & H). exists nt. split; [exact G|]. rewrite <- (app_nil_r (filter _ _)). apply H; [exact LX|]. apply A_done.
Qed.
End P.
