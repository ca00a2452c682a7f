(** C74: tokens emitted by token hooks are checked. *)
From Coq Require Import ZArith List Bool Lia Arith.
From Verif Require Import Base BaseProofs Grammar Rules Parser ParserSpec ParserErr ParserDemo TablesCheck Prop_Parser Prop_ParserCases ParserEmitSpec ParserEmit.
Import ListNotations.
Open Scope Z_scope.

Section P.
Context {Tok Src W E Inst R : Type}.
Variable c : config Tok Src W E Inst R.
(** Whatever comes of a parse, all its emitted tokens have been checked. *)
Theorem emitted_checked fuel w t0 s : endsIn (parseFrom c fuel w t0) s -> checked c (pLog s).
Proof. intros H. pose proof (errs_parseFrom c fuel w t0) as P. destruct (parseFrom c fuel w t0); cbn in H; try contradiction; subst; exact P. Qed.
Lemma checked_known l : checked c l -> (forall x, ~ In (EvWrong x) l) -> forall layer t emit extra x, In (EvDecide layer t emit extra) l -> In x extra -> known c (cType c x).
Proof.
  intros C. induction C as [|ev l N1 N2 C IH|layer t emit extra l F C IH|layer t emit good x others l F N C IH]; intros NW la tt em ex y I1 I2; [destruct I1| | |].
  - destruct I1 as [->|I1]; [destruct (N1 la tt em ex eq_refl)|]. refine (IH _ _ _ _ _ _ I1 I2). intros z Z. apply (NW z). right. exact Z.
  - destruct I1 as [I1|I1]; [injection I1 as <- <- <- <-; rewrite Forall_forall in F; auto|]. refine (IH _ _ _ _ _ _ I1 I2). intros z Z. apply (NW z). right. exact Z.
  - destruct (NW x). left. reflexivity.
Qed.
(** When rules need no lookahead: a parse that succeeds has taken from hooks tokens of known types only; a token of an unknown type ends the parse with an error
    that names it, and it is the first such one of those emitted by the last call of a hook. *)
Theorem emitted_known_partial fuel w t0 r s : gMultiRules (cGrammar c) = [] -> parseFrom c fuel w t0 = Done r s ->
  forall layer t emit extra x, In (EvDecide layer t emit extra) (pLog s) -> In x extra -> known c (cType c x).
Proof.
  intros GM P. apply checked_known; [apply (emitted_checked fuel w t0); rewrite P; reflexivity|]. intros x I.
  assert (EI : endsIn (parseFrom c fuel w t0) s) by (rewrite P; reflexivity).
  destruct (token_hook_error_aborts_partial c fuel w t0 s (EvWrong x) GM EI I eq_refl) as ((e & X & _) & _). congruence.
Qed.
Theorem emitted_wrong fuel w t0 x s : parseFrom c fuel w t0 = Fail (EmitWrongToken x) s ->
  exists before layer t emit good others, rev (pLog s) = before ++ [EvDecide layer t emit (good ++ x :: others); EvWrong x] /\ Forall (fun y => known c (cType c y)) good /\ ~ known c (cType c x).
Proof.
  intros P. assert (EI : endsIn (parseFrom c fuel w t0) s) by (rewrite P; reflexivity). pose proof (emitted_checked _ _ _ _ EI) as C.
  pose proof (ParserErr.errs_parseFrom c (fun _ => false) False) as HE. specialize (HE ltac:(reflexivity) ltac:(right; reflexivity) fuel w t0). rewrite P in HE. cbn in HE.
  destruct HE as [(ev & l & E1 & E2 & _)|([] & _)]. destruct ev; cbn in E2; try discriminate E2; injection E2 as <-. rewrite E1 in *.
  inversion C as [|ev' l' N1 N2 C'| |layer t' emit good x' others l' F N C']; subst; [destruct (N2 _ eq_refl)|]. exists (rev l'), layer, t', emit, good, others. cbn [rev]. rewrite <- app_assoc. auto.
Qed.
End P.
Module Example1.
  (** adds after each token of type 1 a token of type 2, a token of no type (any token) and one more *)
  Definition adder : tokenHook (Tok := dTok) (Src := list dTok) (W := Z) (E := Z) := fun t => PRet true (if fst t =? 1 then [(2, 70); (-1, 80); (2, 90)] else []) None.
  Example refused : exists s, parseFrom (demo dGrammar [Hooks.layer adder] true false) 50 (Prop_ParserCases.Example1.source, 0) (0, 1) = Fail (EmitWrongToken (-1, 80)) s /\
    exists before, pLog s = EvWrong (-1, 80) :: EvDecide 0 (1, 3) true [(2, 70); (-1, 80); (2, 90)] :: before.
  Proof. eexists. split; [vm_compute; reflexivity|]. eexists. reflexivity. Qed.
  (** a hook that repeats tokens with types of the grammar *)
  Definition repeater : tokenHook (Tok := dTok) (Src := list dTok) (W := Z) (E := Z) := fun t => PRet true (if fst t =? 1 then [(4, 70)] else []) None.
  Example taken : gMultiRules dGrammar = [] /\ exists r s, parseFrom (demo dGrammar [Hooks.layer repeater] true false) 50 (Prop_ParserCases.Example1.source, 0) (0, 1) = Done r s /\
    In (EvDecide 0 (1, 3) true [(4, 70)]) (pLog s).
  Proof. split; [reflexivity|]. do 2 eexists. split; [vm_compute; reflexivity|]. vm_compute. repeat (first [left; reflexivity|right]). Qed.
  (** emits a token of an unknown type at the first "b" it sees *)
  Definition once : tokenHook (Tok := dTok) (Src := list dTok) (W := Z) (E := Z) := fun t =>
    if fst t =? 1 then PWorld (fun w => (fst w, snd w + 1)) (fun w => PRet true (if snd w =? 1 then [(-1, 80)] else []) None) else PRet true [] None.
End Example1.
(** With lookahead the error is lost, and the parse succeeds. *)
Theorem emitted_known_refuted : exists r s, tablesOk Prop_ParserCases.Example2.g /\
  parseFrom (demo Prop_ParserCases.Example2.g [Hooks.layer Example1.once] false false) 50 ([(0, 1); (1, 2); (1, 3)], 0) (0, 1) = Done r s /\
  In (EvDecide 0 (1, 2) true [(-1, 80)]) (pLog s) /\ ~ known (demo Prop_ParserCases.Example2.g [Hooks.layer Example1.once] false false) (-1).
Proof.
  do 2 eexists. split; [apply tablesB_ok; vm_compute; reflexivity|]. split; [vm_compute; reflexivity|]. split; [vm_compute; repeat (first [left; reflexivity|right])|].
  intros [[X _]|[X|X]]; [apply X; reflexivity|discriminate X|discriminate X].
Qed.
Print Assumptions emitted_known_refuted.
Print Assumptions emitted_checked.
Print Assumptions emitted_known_partial.
Print Assumptions emitted_wrong.
