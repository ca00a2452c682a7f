(** The tables of a grammar made of definitions without left recursion and without repetitions of something empty have no idle loops. *)
From Coq Require Import ZArith QArith List Bool Lia Lqa Relations.
From Verif Require Import Base BaseProofs Grammar RulesSpec Parser ParserSpec ParserTermSpec LangBuild LangSpec LangProofs LangFrame LangComplete LangSound LangNodesSpec
  LangDrop LangTables LangRules Prop_LangStates Prop_LangTables Prop_LangGrammar LangIdleSpec LangIdle.
Import ListNotations.
Open Scope Z_scope.

(** Finitely many propositions may be decided when the goal is a contradiction. *)
Lemma decide_all (P : Z -> Prop) n : ~ ~ exists l : list bool, length l = n /\ forall i, (i < n)%nat -> nth i l false = true <-> P (Z.of_nat i).
Proof.
  induction n as [|n IH]; intros N.
  - apply N. exists []. split; [reflexivity|]. intros i; lia.
  - apply IH. intros (l & L & H). assert (X : forall b : bool, (b = true <-> P (Z.of_nat n)) -> False).
    { intros b B. apply N. exists (l ++ [b]). split; [rewrite app_length; cbn; lia|]. intros i I0. destruct (Nat.eq_dec i n) as [->|NE].
      - rewrite app_nth2 by lia. rewrite L, Nat.sub_diag. exact B.
      - rewrite app_nth1 by lia. apply H. lia. }
    apply (X false). split; [discriminate|]. intros Y. destruct (X true). split; auto.
Qed.

Lemma nth_error_zget_None {A} (l : list A) i : zget l i = None -> i < 0 \/ zlen l <= i.
Proof. unfold zget, zlen. destruct (Z.ltb_spec i 0); [auto|]. intros X. apply nth_error_None in X. lia. Qed.

Section T.
Variable firsts : list (list Z).
Variable defs : list chunk.
Notation odefs := (map Some defs).
Hypothesis W : forall d, In d defs -> written d /\ skipsApart d false = true.
Hypothesis EN : forall d, In d defs -> endless d = true.
Hypothesis LR : forall d, In d defs -> loopsRead odefs d.
Hypothesis TF : forall d i t, In d defs -> mentions d i -> In t (firstsOf firsts i) -> 0 <= t.
Hypothesis NR : forall i, ~ leftRecursive (leftCornerOrEmpty odefs) i.

Lemma defined_in i d : LangNodesSpec.defined odefs i d <-> zget defs i = Some d.
Proof.
  unfold LangNodesSpec.defined, zget. destruct (i <? 0); [split; discriminate|]. rewrite nth_error_map. destruct (nth_error defs (Z.to_nat i)); cbn; split; congruence.
Qed.
(** what is known of the states under construction *)
Lemma ranks e : (forall i, e i = true <-> produces odefs (CNode i) []) -> exists R : Z -> nat, forall i d j, zget defs i = Some d -> In j (headsOf e d) -> (R j < R i)%nat.
Proof.
  intros EX. set (heads := fun i => match zget defs i with Some d => headsOf e d | None => [] end).
  destruct (acyclic_rank heads (map Z.of_nat (seq 0 (length defs)))) as (R & H).
  - intros i j J. unfold heads in J. destruct (zget defs i) as [d|] eqn:G; [|destruct J]. apply zget_Some_inv in G as (A & B). apply in_map_iff. exists (Z.to_nat i). split; [lia|]. apply in_seq. unfold zlen in B. lia.
  - intros i C. apply (NR i). assert (X : forall i j, In j (heads i) -> leftCornerOrEmpty odefs i j).
    { intros i' j J. unfold heads in J. destruct (zget defs i') as [d|] eqn:G; [|destruct J]. destruct (heads_corner odefs e EX d (proj1 (W d (zget_In _ _ _ G))) j J) as (v & u & w & D & F).
      exists d, v, u, w. split; [apply defined_in, G|]. split; [exact D|exact F]. }
    unfold leftRecursive. clear - C X. revert C; generalize i at 2 4; intros j C; induction C as [a b H|a b c _ IH1 _ IH2]; [apply t_step, X, H|eapply t_trans; eassumption].
  - exists R. intros i d j G J. apply H. unfold heads. rewrite G. exact J.
Qed.

Lemma no_idle tokens layers names g : compiled tokens layers names firsts defs g -> noIdleLoop g.
Proof.
  intros C i0 CY. apply (decide_all (fun i => produces odefs (CNode i) []) (length defs)). intros (el & EL & EH).
  set (e := fun i => (0 <=? i) && nth (Z.to_nat i) el false).
  assert (EX : forall i, e i = true <-> produces odefs (CNode i) []).
  { intros i. unfold e. destruct (Z.leb_spec 0 i) as [P|P]; cbn [andb].
    - destruct (Nat.lt_ge_cases (Z.to_nat i) (length defs)) as [L|L].
      + rewrite (EH _ L), Z2Nat.id by lia. reflexivity.
      + rewrite nth_overflow by lia. split; [discriminate|]. intros H. inversion H as [| |? d ? D| | | |]; subst. apply defined_in in D. apply zget_Some_inv in D. unfold zlen in D. lia.
    - split; [discriminate|]. intros H. inversion H as [| |? d ? D| | | |]; subst. apply defined_in in D. apply zget_Some_inv in D. lia. }
  destruct (ranks e EX) as (R & RK). set (RQ := fun i => inject_Z (Z.of_nat (R i))).
  assert (RL : forall i j, (R i < R j)%nat -> (RQ i < RQ j)%Q) by (intros i j H; unfold RQ; rewrite <- Zlt_Qlt; lia).
  destruct (compiled_rules _ _ _ _ _ _ (fun d D => proj1 (W d D)) C) as (fs & es & fs' & es' & ST & LF & DR & _ & FS & _ & LF' & RU).
  destruct (drop_keeps_machine_partial firsts defs fs es W TF ST) as (fs1 & es1 & phi & DR1 & SM). rewrite DR in DR1. injection DR1 as <- <-.
  destruct ST as (p & BN & RT).
  destruct (nodes_idle odefs e EX firsts RQ defs 0) with (p := mkPres [] 0) (fs := fs) (p' := p) (den := fun _ : Z => ((- (1))%Q, true)) as (den & AG & AD & _ & DN).
  - intros i d D. pose proof (nth_error_In _ _ D) as ID. split; [apply W, ID|]. split; [apply EN, ID|]. split; [apply LR, ID|].
    assert (G : zget defs (0 + Z.of_nat i) = Some d). { unfold zget. destruct (Z.ltb_spec (0 + Z.of_nat i) 0); [lia|]. rewrite Z.add_0_l, Nat2Z.id. exact D. }
    split.
    + intros V. apply EX. eapply P_nested; [apply defined_in, G|]. apply (void_produces odefs e EX), V.
    + intros j J. apply RL. eapply RK; eassumption.
  - intros i. unfold RQ. change 0%Q with (inject_Z 0). rewrite <- Zle_Qle. lia.
  - exact BN.
  - intros q x G. apply zget_Some_inv in G. cbn in G. lia.
  - reflexivity.
  - assert (RG : forall q r, hasRule es q r -> (rNode r = SameNode -> rToken r <> EoiToken) /\ fits e RQ den q r).
    { intros q r H. apply (retyped_has _ _ q r RT) in H. apply AD in H. destruct H as [(x & G & _)|H]; [apply zget_Some_inv in G; cbn in G; lia|]. apply H. }
    assert (DF : den FinalState = ((- (1))%Q, true)) by (symmetry; apply AG; unfold FinalState; cbn; lia).
    destruct (built_ready _ _ _ _ _ (fun d D => proj1 (W d D)) BN RT) as (_ & _ & NB & BR).
    assert (TG : forall q r, hasRule es q r -> FinalState <= rState r < zlen es). { intros q r (x & G & I0). apply (BR x r (zget_In _ _ _ G) I0). }
    (* states of the tables and states under construction *)
    set (is := fun x y => x = FinalState /\ y = FinalState \/ inUse fs es x /\ y = phi x).
    assert (UB : forall x, inUse fs es x -> 0 <= x < zlen es).
    { intros x [X|(q & r & H & <- & P)]; [apply NB, X|]. specialize (TG q r H). lia. }
    assert (NX : forall x r, hasRule es x r -> is (rState r) (rState (rename phi r))).
    { intros x r H. unfold rename. cbn [rState]. destruct (Z.eqb_spec (rState r) FinalState) as [E|E]; [left; auto|]. right. split; [|reflexivity]. right. exists x, r. specialize (TG x r H). unfold FinalState in *. split; [exact H|]. split; [reflexivity|lia]. }
    assert (PH : forall x, inUse fs es x -> 0 <= phi x).
    { intros x X. destruct (zget es x) as [e0|] eqn:G; [|apply nth_error_zget_None in G; specialize (UB x X); lia]. destruct (sm_types _ _ _ _ _ SM x e0 X G) as (e' & G' & _). apply zget_Some_inv in G'. lia. }
    assert (RB : forall x y r', is x y -> ruleOf g y r' -> exists r, hasRule es x r /\ r' = rename phi r).
    { intros x y r' [(-> & ->)|(X & ->)] H; apply RU in H.
      - destruct H as (x & G & _). apply zget_Some_inv in G. unfold FinalState in G. lia.
      - apply (sm_rules _ _ _ _ _ SM x X) in H. exact H. }
    assert (IN : forall y r, ruleOf g y r -> exists x, is x y).
    { intros y r H. apply RU in H. destruct H as (e0 & G & _). destruct (sm_only _ _ _ _ _ SM y e0 G) as (x & X & <-). exists x. right. auto. }
    assert (INJ : forall x x' y, is x y -> is x' y -> x = x').
    { intros x x' y [(-> & ->)|(X & ->)] [(-> & E)|(X' & E)]; auto.
      - specialize (PH x' X'). unfold FinalState in E. lia.
      - specialize (PH x X). unfold FinalState in E. lia.
      - apply (sm_inj _ _ _ _ _ SM); auto. }
    assert (FST : forall n nt, zget (gNodes g) n = Some nt -> exists f, is f (gnFirst nt) /\ den f = (RQ n, e n)).
    { intros n nt G. unfold zget in G. destruct (Z.ltb_spec n 0) as [L|L]; [discriminate|].
      assert (F' : nth_error fs' (Z.to_nat n) = Some (gnFirst nt)) by (rewrite <- FS, nth_error_map, G; reflexivity).
      rewrite (sm_first _ _ _ _ _ SM), nth_error_map in F'. destruct (nth_error fs (Z.to_nat n)) as [f|] eqn:F; [|discriminate]. injection F' as F'.
      exists f. split; [right; split; [left; eapply nth_error_In, F|auto]|]. rewrite (DN _ _ F), Z.add_0_l, Z2Nat.id by lia. reflexivity. }
    (* what can be empty *)
    assert (EM : forall y, canBeEmpty g y -> forall x, is x y -> snd (den x) = true).
    { induction 1 as [|y r' H RN _ IH|y r' nt H (O1 & O2) _ IH1 _ IH2]; intros x X.
      - destruct X as [(-> & _)|(X & E)]; [rewrite DF; reflexivity|]. specialize (PH x X). unfold FinalState in E. lia.
      - destruct (RB x y r' X H) as (r & HR & ->). destruct (RG x r HR) as (N1 & F). destruct RN as (N & T). cbn [rNode rToken rename] in N, T. unfold fits in F. rewrite N, Z.eqb_refl in F.
        destruct T as [T|T]; [|destruct (N1 N T)]. apply (F T). apply IH, (NX x r HR).
      - destruct (RB x y r' X H) as (r & HR & ->). destruct (RG x r HR) as (N1 & F). cbn [rNode rename] in O1, O2. unfold fits in F. apply Z.eqb_neq in O1. rewrite O1 in F. destruct F as (F1 & F2).
        destruct (FST _ _ O2) as (f & IS & DE). apply F2; [|apply IH2, (NX x r HR)]. specialize (IH1 f IS). rewrite DE in IH1. exact IH1. }
    (* idle moves go down *)
    assert (DOWN : forall y y', idle g y y' -> forall x, is x y -> exists x', is x' y' /\ (fst (den x') < fst (den x))%Q).
    { intros y y' [y1 r' H (N & T)|y1 r' nt H (O1 & O2) CE|y1 r' nt H (O1 & O2)] x X; destruct (RB x y1 r' X H) as (r & HR & ->); destruct (RG x r HR) as (N1 & F); unfold fits in F.
      - cbn [rNode rToken rename] in N, T. rewrite N, Z.eqb_refl in F. destruct T as [T|T]; [|destruct (N1 N T)]. exists (rState r). split; [apply (NX x r HR)|apply (F T)].
      - cbn [rNode rename] in O1, O2. apply Z.eqb_neq in O1. rewrite O1 in F. destruct F as (F1 & F2). exists (rState r). split; [apply (NX x r HR)|]. apply F2.
        destruct (FST _ _ O2) as (f & IS & DE). pose proof (EM _ CE f IS) as Y. rewrite DE in Y. exact Y.
      - cbn [rNode rename] in O1, O2. apply Z.eqb_neq in O1. rewrite O1 in F. destruct F as (F1 & F2). destruct (FST _ _ O2) as (f & IS & DE). exists f. split; [exact IS|]. rewrite DE. exact F1. }
    assert (DT : forall y y', clos_trans Z (idle g) y y' -> forall x, is x y -> exists x', is x' y' /\ (fst (den x') < fst (den x))%Q).
    { induction 1 as [y y' H|y y1 y2 _ IH1 _ IH2]; intros x X; [eapply DOWN; eassumption|]. destruct (IH1 x X) as (x1 & X1 & L1). destruct (IH2 x1 X1) as (x2 & X2 & L2). exists x2. split; [exact X2|lra]. }
    assert (ST : exists x, is x i0).
    { assert (Y : exists y, idle g i0 y). { clear - CY. revert CY. generalize i0 at 2. intros z CY. induction CY as [y y2 H|y y1 y2 _ IH1 _ _]; [exists y2; exact H|exact IH1]. }
      destruct Y as (y & [y1 r H _|y1 r nt H _ _|y1 r nt H _]); eapply IN, H. }
    destruct ST as (x & X). destruct (DT _ _ CY x X) as (x' & X' & L). rewrite (INJ _ _ _ X' X) in L. lra.
Qed.
End T.
