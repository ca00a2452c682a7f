(** State machines built for the definitions of nodes and the EBNF (C18, C19).  [firsts] are the
    sets of first tokens of the nodes, [defs] are the definitions, [fs] are the first states. *)
From Coq Require Import ZArith List Bool Lia.
From Verif Require Import Base BaseProofs Grammar LangBuild LangSpec LangProofs LangFrame LangComplete LangSound LangTotal.
Import ListNotations.
Open Scope Z_scope.

(** some node has the definition [d] and the first state [f] *)
Definition built (defs : list chunk) (fs : list Z) (d : chunk) (f : Z) : Prop :=
  exists i, nth_error defs i = Some d /\ nth_error fs i = Some f.
(** The definition of a node is a plain sequence, parser.go:727-749 *)
Definition nodeDef (d : chunk) : Prop := exists l, d = CGroup false false l.

(** the states of a definition depend on the first tokens of the nodes it mentions *)
Lemma build_ext f f' c : (forall i, mentions c i -> firstsOf f i = firstsOf f' i) -> forall s n p, buildStates f c s n p = buildStates f' c s n p.
Proof.
  induction c as [t| |i|opt rep l IH|l IH] using chunk_nest; intros H s n p; try reflexivity.
  - cbn [buildStates]. rewrite (H i) by constructor. reflexivity.
  - rewrite !buildStates_group. cbv zeta.
    destruct (if rep && (1 <? zlen l) then addState p else (s, p)) as (first, p0). destruct (addStates (length l - 1) p0) as (rest, p1).
    assert (X : forall tail states p, buildSeq f l states tail p = buildSeq f' l states tail p).
    { intros tail. assert (M : forall c, In c l -> forall s n p, buildStates f c s n p = buildStates f' c s n p).
      { intros c C. apply IH; [exact C|]. intros i M. apply H. econstructor; eassumption. }
      clear - M. induction l as [|c l IL]; intros states p; [reflexivity|]. destruct states as [|x states]; [reflexivity|]. cbn [buildSeq].
      rewrite (M c (or_introl eq_refl)). destruct (buildStates f' c x (hd tail states) p); [|reflexivity]. cbn [obind]. apply IL.
      intros c' C. apply M. right. exact C. }
    rewrite X. reflexivity.
  - rewrite !buildStates_var.
    assert (M : forall c, In c l -> forall s n p, buildStates f c s n p = buildStates f' c s n p).
    { intros c C. apply IH; [exact C|]. intros i M. apply H. econstructor; eassumption. }
    clear - M. revert p. induction l as [|c l IL]; intros p; [reflexivity|]. cbn [buildVar].
    rewrite (M c (or_introl eq_refl)). destruct (buildStates f' c s n p); [|reflexivity]. cbn [obind]. apply IL.
    intros c' C. apply M. right. exact C.
Qed.
Lemma nodes_ext f f' defs : (forall d i, In d defs -> mentions d i -> firstsOf f i = firstsOf f' i) -> forall p, buildNodes f defs p = buildNodes f' defs p.
Proof.
  induction defs as [|d defs IH]; intros H p; [reflexivity|]. cbn [buildNodes]. destruct (addState p) as (x, p0).
  rewrite (build_ext f f' d) by (intros i; apply H; left; reflexivity). destruct (buildStates f' d x FinalState p0); [|reflexivity]. cbn [obind].
  rewrite IH; [reflexivity|]. intros d' i D. apply H. right. exact D.
Qed.
Lemma filter_same {A} (g : A -> bool) l : (forall x, In x l -> g x = true) -> filter g l = l.
Proof. induction l as [|x l IH]; intros H; [reflexivity|]. cbn [filter]. rewrite (H x (or_introl eq_refl)). f_equal. apply IH. intros y Y. apply H. right. exact Y. Qed.

Lemma derives_endless starts :
  (forall c w, derives starts c w -> endless c = true -> ~ In SEoi w) /\
  (forall l w, derivesSeq starts l w -> forallb endless l = true -> ~ In SEoi w).
Proof.
  apply derives_both.
  - intros t _ [X|[]]. discriminate.
  - discriminate.
  - intros i t _ _ [X|[]]. discriminate.
  - intros l c w C _ IH E. cbn [endless] in E. rewrite forallb_forall in E. apply IH, E, C.
  - intros opt rep l w _ IH E. apply IH, E.
  - intros _ l _ [].
  - intros opt l w v _ IH _ IH' E C. apply in_app_iff in C. destruct C as [C|C]; [exact (IH E C)|exact (IH' E C)].
  - intros _ [].
  - intros c l w v _ IH _ IH' E C. cbn [forallb] in E. apply andb_true_iff in E. apply in_app_iff in C. destruct C as [C|C]; [exact (IH (proj1 E) C)|exact (IH' (proj2 E) C)].
Qed.
Lemma cut_id w : ~ In SEoi w -> cut w = w.
Proof. induction w as [|x w IH]; intros N; [reflexivity|]. cbn [cut]. rewrite IH by (intros C; apply N; right; exact C). destruct x; [reflexivity| |reflexivity]. contradiction N. left. reflexivity. Qed.

(** Every string derived from a definition leads from the first state of the node to the final one
    (what follows the end of input is of no interest), unless some nested node may begin with the end of input. *)
Theorem compiled_accepts_all_partial firsts defs fs p d f w :
  (forall d, In d defs -> nodeDef d /\ written d) ->
  (forall d i t, In d defs -> mentions d i -> In t (firstsOf firsts i) -> 0 <= t) ->
  buildNodes firsts defs (mkPres [] 0) = Some (fs, p) ->
  built defs fs d f -> derives (fun i t => In t (firstsOf firsts i)) d w ->
  accepts (hasRule (prStates p)) f (cut w).
Proof.
  intros W TF H (i & D & F) X.
  assert (T : tidy (mkPres [] 0)).
  { split.
    - intros q e G. apply zget_Some_inv in G. cbn in G. lia.
    - intros q r (e & G & _). apply zget_Some_inv in G. cbn in G. lia.
    - intros q r (e & G & _). apply zget_Some_inv in G. cbn in G. lia. }
  set (f' := map (filter (fun t => 0 <=? t)) firsts).
  assert (FE : forall i, firstsOf f' i = filter (fun t => 0 <=? t) (firstsOf firsts i)).
  { intros j. unfold firstsOf, f'. unfold zget. destruct (j <? 0); [reflexivity|]. rewrite nth_error_map. destruct (nth_error firsts (Z.to_nat j)); reflexivity. }
  assert (EQ : forall d i, In d defs -> mentions d i -> firstsOf firsts i = firstsOf f' i).
  { intros d' j D' M. rewrite FE. symmetry. apply filter_same. intros t I. apply Z.leb_le. eapply TF; eassumption. }
  rewrite (nodes_ext _ f' _ EQ) in H.
  eapply (nodes_complete f'); [|intros d0 D0; destruct (W d0 D0) as ((l & ->) & W0); eauto|exact H|exact T|exact D|exact F|].
  - intros j t I. rewrite FE in I. apply filter_In in I. apply Z.leb_le, I.
  - apply (proj1 (derives_mentions (fun i t => In t (firstsOf firsts i)) (starts f')) _ _ X).
    intros j t M I. unfold starts. rewrite <- (EQ d j (nth_error_In _ _ D) M). exact I.
Qed.

(** Every string that leads from the first state of a node to the final one is a string of its
    definition, provided that repetitions stand apart ([loopsApart]). *)
Theorem compiled_accepts_only_partial firsts defs fs p d f w :
  (forall d, In d defs -> written d /\ loopsApart d = true) ->
  (forall d i, In d defs -> mentions d i -> firstsOf firsts i <> []) ->
  buildNodes firsts defs (mkPres [] 0) = Some (fs, p) ->
  built defs fs d f -> accepts (hasRule (prStates p)) f w ->
  exists w', derives (fun i t => In t (firstsOf firsts i)) d w' /\ w = cut w'.
Proof. intros W M H (i & D & F) A. exact (nodes_accept_only firsts defs fs p W M H i d f w D F A). Qed.

(** The construction itself does not fail. *)
Theorem compiles firsts defs : (forall d, In d defs -> written d) -> exists fs p, buildNodes firsts defs (mkPres [] 0) = Some (fs, p) /\ length fs = length defs.
Proof. intros W. apply nodes_total, W. Qed.

(** Both ways, for definitions that do not use the end of input. *)
Theorem compiled_accepts_exactly_partial firsts defs fs p d f :
  (forall d, In d defs -> nodeDef d /\ written d /\ loopsApart d = true) ->
  (forall d i, In d defs -> mentions d i -> firstsOf firsts i <> [] /\ forall t, In t (firstsOf firsts i) -> 0 <= t) ->
  buildNodes firsts defs (mkPres [] 0) = Some (fs, p) ->
  built defs fs d f -> endless d = true ->
  forall w, accepts (hasRule (prStates p)) f w <-> derives (fun i t => In t (firstsOf firsts i)) d w.
Proof.
  intros W M H B EN w. split.
  - intros A. destruct (compiled_accepts_only_partial firsts defs fs p d f w) as (w' & D & ->); auto.
    + intros d' D'. destruct (W d' D') as (_ & X & Y). auto.
    + intros d' i D' X. apply (M d' i D' X).
    + rewrite (cut_id w'); [exact D|]. eapply (proj1 (derives_endless _)); eassumption.
  - intros D. rewrite <- (cut_id w) by (eapply (proj1 (derives_endless _)); eassumption).
    apply (compiled_accepts_all_partial firsts defs fs p d f w); auto.
    + intros d' D'. destruct (W d' D') as (X & Y & _). auto.
    + intros d' i t D' X. apply (M d' i D' X).
Qed.

(** *** Refutations of the full statements *)
(** [root = x | $; x = $;]: the rule for the nested node is lost, although the definition of the root
    derives the node [x]. *)
Theorem compiled_accepts_all_refuted : exists firsts defs fs p d f w,
  (forall d, In d defs -> nodeDef d /\ written d) /\
  buildNodes firsts defs (mkPres [] 0) = Some (fs, p) /\
  built defs fs d f /\ derives (fun i t => In t (firstsOf firsts i)) d w /\
  ~ accepts (hasRule (prStates p)) f (cut w).
Proof.
  exists [[EoiToken]; [EoiToken]], [CGroup false false [CVar [CNode 1; CEoi]]; CGroup false false [CEoi]].
  do 2 eexists. exists (CGroup false false [CVar [CNode 1; CEoi]]), 0, [SNode 1 EoiToken].
  split; [|split; [vm_compute; reflexivity|]].
  - assert (W : forall d, In d [CGroup false false [CVar [CNode 1; CEoi]]; CGroup false false [CEoi]] -> nodeDef d /\ written d).
    { intros d [<-|[<-|[]]]; (split; [eexists; reflexivity|]); apply W_group; try discriminate; intros c [<-|[]].
      - apply W_var; [discriminate|]. intros c [<-|[<-|[]]]; [apply W_node; lia|apply W_eoi].
      - apply W_eoi. }
    exact W.
  - split; [exists O; split; reflexivity|]. split.
    + apply D_once. change [SNode 1 EoiToken] with ([SNode 1 EoiToken] ++ []). constructor; [|constructor].
      eapply D_variant; [left; reflexivity|]. constructor. left. reflexivity.
    + cbn [cut]. intros A. inversion A as [|i r w (e & G & R) A' E1 E2]. subst i. cbn in G. injection G as <-.
      cbn in R. destruct R as [<-|[]]. cbn in E2. discriminate E2.
Qed.
(** [root = [{$a}, $b];]: the machine accepts [a]. *)
Theorem compiled_accepts_only_refuted : exists firsts defs fs p d f w,
  (forall d, In d defs -> nodeDef d /\ written d) /\
  (forall d i, In d defs -> mentions d i -> firstsOf firsts i <> []) /\
  buildNodes firsts defs (mkPres [] 0) = Some (fs, p) /\
  built defs fs d f /\ accepts (hasRule (prStates p)) f w /\
  ~ exists w', derives (fun i t => In t (firstsOf firsts i)) d w' /\ w = cut w'.
Proof.
  set (d := CGroup false false [CGroup true false [CGroup true true [CTok 0]; CTok 1]]).
  exists [[0; 1]], [d]. do 2 eexists. exists d, 0, [STok 0].
  split; [|split; [|split; [vm_compute; reflexivity|]]].
  - intros c [<-|[]]. split; [eexists; reflexivity|]. apply W_group; try discriminate. intros c [<-|[]]. apply W_group; try discriminate.
    intros c [<-|[<-|[]]]; [|apply W_tok; lia]. apply W_group; try discriminate; [reflexivity|]. intros c [<-|[]]. apply W_tok. lia.
  - assert (MG : forall opt rep l i, mentions (CGroup opt rep l) i -> exists c, In c l /\ mentions c i) by (intros opt rep l i M; inversion M; subst; eauto).
    intros c i [<-|[]] M. exfalso. apply MG in M. destruct M as (c1 & [<-|[]] & M). apply MG in M. destruct M as (c2 & [<-|[<-|[]]] & M); [|inversion M].
    apply MG in M. destruct M as (c3 & [<-|[]] & M). inversion M.
  - split; [exists O; split; reflexivity|]. split.
    + (* a, then out of the loop: the entry state of the loop is the entry state of the group *)
      change [STok 0] with (label (mkRule 0 0 SameNode) ++ label (mkRule AnyToken FinalState SameNode) ++ []).
      apply A_rule; [eexists; split; [reflexivity|cbn; auto]|]. apply A_rule; [|apply A_end]. eexists. split; [reflexivity|cbn; auto].
    + intros (w & D & E). rewrite (cut_id w) in E by (eapply (proj1 (derives_endless _)); [exact D|reflexivity]).
      assert (X : forall z, derives (fun i t => In t (firstsOf [[0; 1]] i)) d z -> z = [] \/ exists u, z = u ++ [STok 1]).
      { clear. intros z D.
        inversion D as [| | | |? ? ? ? D1| |]; subst. inversion D1 as [|? ? w1 w2 D2 D3]; subst. inversion D3; subst. rewrite app_nil_r.
        inversion D2 as [| | | |? ? ? ? D4| |]; subst; [|auto]. right.
        inversion D4 as [|? ? w3 w4 D5 D6]; subst. inversion D6 as [|? ? w5 w6 D7 D8]; subst. inversion D8; subst. inversion D7; subst. eauto. }
      destruct (X w D) as [->|(u & ->)]; [discriminate E|]. destruct u as [|x [|y u]]; discriminate E.
Qed.

(** *** A grammar that meets all the conditions:
    [root = {item}, $e; item = ($a) | $x, [$b, {$c, $d}];] *)
Module Example1.
  Definition firsts := [[0; 4; 5]; [0; 5]].
  Definition item := CGroup false false [CVar [CGroup false false [CTok 0]; CTok 5]; CGroup true false [CTok 1; CGroup true true [CTok 2; CTok 3]]].
  Definition root := CGroup false false [CGroup true true [CNode 1]; CTok 4].
  Definition defs := [root; item].
  Lemma ok : forall d, In d defs -> nodeDef d /\ written d /\ loopsApart d = true.
  Proof.
    intros d [<-|[<-|[]]]; (split; [eexists; reflexivity|]); (split; [|reflexivity]).
    - apply W_group; try discriminate. intros c [<-|[<-|[]]]; [|apply W_tok; lia]. apply W_group; [discriminate|reflexivity|].
      intros c [<-|[]]. apply W_node. lia.
    - apply W_group; try discriminate. intros c [<-|[<-|[]]].
      + apply W_var; [discriminate|]. intros c [<-|[<-|[]]]; [|apply W_tok; lia]. apply W_group; try discriminate. intros c [<-|[]]. apply W_tok. lia.
      + apply W_group; try discriminate. intros c [<-|[<-|[]]]; [apply W_tok; lia|]. apply W_group; [discriminate|reflexivity|].
        intros c [<-|[<-|[]]]; apply W_tok; lia.
  Qed.
  Lemma firsts_ok : forall d i, In d defs -> mentions d i -> firstsOf firsts i <> [] /\ forall t, In t (firstsOf firsts i) -> 0 <= t.
  Proof.
    assert (X : forall i, i = 1 -> firstsOf firsts i <> [] /\ forall t, In t (firstsOf firsts i) -> 0 <= t).
    { intros i ->. split; [discriminate|]. cbn. intros t [<-|[<-|[]]]; lia. }
    assert (MG : forall opt rep l i, mentions (CGroup opt rep l) i -> exists c, In c l /\ mentions c i) by (intros opt rep l i M; inversion M; subst; eauto).
    assert (MV : forall l i, mentions (CVar l) i -> exists c, In c l /\ mentions c i) by (intros l i M; inversion M; subst; eauto).
    intros d i D M. apply X. destruct D as [<-|[<-|[]]]; apply MG in M.
    - destruct M as (c & [<-|[<-|[]]] & M); [|inversion M]. apply MG in M. destruct M as (c & [<-|[]] & M). inversion M. reflexivity.
    - destruct M as (c & [<-|[<-|[]]] & M).
      + apply MV in M. destruct M as (c & [<-|[<-|[]]] & M); [|inversion M]. apply MG in M. destruct M as (c & [<-|[]] & M). inversion M.
      + apply MG in M. destruct M as (c & [<-|[<-|[]]] & M); [inversion M|]. apply MG in M. destruct M as (c & [<-|[<-|[]]] & M); inversion M.
  Qed.
  Example both : exists fs p, buildNodes firsts defs (mkPres [] 0) = Some (fs, p) /\
    (exists f, built defs fs root f /\ forall w, accepts (hasRule (prStates p)) f w <-> derives (fun i t => In t (firstsOf firsts i)) root w) /\
    (exists f, built defs fs item f /\ forall w, accepts (hasRule (prStates p)) f w <-> derives (fun i t => In t (firstsOf firsts i)) item w).
  Proof.
    do 2 eexists. split; [vm_compute; reflexivity|]. split.
    - eexists. split; [exists O; split; reflexivity|]. eapply compiled_accepts_exactly_partial; [exact ok|exact firsts_ok|vm_compute; reflexivity|exists O; split; reflexivity|reflexivity].
    - eexists. split; [exists 1%nat; split; reflexivity|]. eapply compiled_accepts_exactly_partial; [exact ok|exact firsts_ok|vm_compute; reflexivity|exists 1%nat; split; reflexivity|reflexivity].
  Qed.
  Example word : derives (fun i t => In t (firstsOf firsts i)) root [SNode 1 0; SNode 1 5; STok 4].
  Proof.
    apply D_once. change [SNode 1 0; SNode 1 5; STok 4] with (([SNode 1 0] ++ [SNode 1 5] ++ []) ++ [STok 4] ++ []).
    constructor; [|constructor; [constructor|constructor]].
    apply D_again; [change [SNode 1 0] with ([SNode 1 0] ++ []); constructor; [apply D_nested; left; reflexivity|constructor]|].
    apply D_again; [change [SNode 1 5] with ([SNode 1 5] ++ []); constructor; [apply D_nested; right; left; reflexivity|constructor]|]. apply D_never.
  Qed.
End Example1.

Print Assumptions compiled_accepts_all_partial.
Print Assumptions compiled_accepts_only_partial.
Print Assumptions compiled_accepts_exactly_partial.
Print Assumptions compiles.
Print Assumptions compiled_accepts_all_refuted.
Print Assumptions compiled_accepts_only_refuted.
