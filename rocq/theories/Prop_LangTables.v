(** Removal of unused states (C20), tables of the resulting grammar (C21), the state machines of the
    resulting grammar and the EBNF (C18, C19). *)
From Coq Require Import ZArith List Bool Lia Sorted.
From Verif Require Import Base BaseProofs Grammar RulesSpec ParserSpec ParserSafeSpec LangBuild LangSpec LangProofs LangFrame LangComplete LangTotal
  TablesSpec LangTables LangDrop LangShare LangFair LangRules Prop_LangStates.
Import ListNotations.
Open Scope Z_scope.

(** [es], the states given to the last step, have the rules built for the definitions; the types of tokens
    of the states ([assignStateTokenTypes]) may be any. *)
Definition statesOf (firsts : list (list Z)) (defs : list chunk) (fs : list Z) (es : list entry) : Prop :=
  exists p, buildNodes firsts defs (mkPres [] 0) = Some (fs, p) /\ retyped es (prStates p).
(** a state is in use: it is the first one of a node, or the target of a rule *)
Definition inUse (fs : list Z) (es : list entry) (x : Z) : Prop := In x fs \/ exists y r, hasRule es y r /\ rState r = x /\ 0 <= x.
Definition rename (phi : Z -> Z) (r : rule) : rule := mkRule (rToken r) (if rState r =? FinalState then FinalState else phi (rState r)) (rNode r).
(** [es'] with the first states [fs'] is [es] with the first states [fs] up to the numbers of the states *)
Record sameMachine (fs : list Z) (es : list entry) (fs' : list Z) (es' : list entry) (phi : Z -> Z) : Prop := mkSame {
  sm_first : fs' = map phi fs;
  sm_rules : forall x, inUse fs es x -> forall r', hasRule es' (phi x) r' <-> exists r, hasRule es x r /\ r' = rename phi r;
  sm_types : forall x e, inUse fs es x -> zget es x = Some e -> exists e', zget es' (phi x) = Some e' /\ eTypes e' = eTypes e;
  sm_inj : forall x y, inUse fs es x -> inUse fs es y -> phi x = phi y -> x = y;
  sm_only : forall y e, zget es' y = Some e -> exists x, inUse fs es x /\ phi x = y
}.

Lemma retyped_refl es : retyped es es.
Proof. unfold retyped. induction es; constructor; auto. Qed.
Lemma inUse_iff fs es x : inUse fs es x <-> In x (usedStates fs es).
Proof.
  rewrite used_In. split.
  - intros [X|(y & r & (e & G & I) & E & P)]; [auto|]. right. exists e, r. split; [eapply zget_In, G|]. subst x. auto.
  - intros [X|(e & r & E & R & P & ->)]; [left; exact X|]. right. apply In_zget in E. destruct E as (y & G). exists y, r. split; [exists e; auto|auto].
Qed.
Lemma retyped_cellsOk es es0 : retyped es es0 -> cellsOk es0 -> cellsOk es.
Proof.
  intros R C i j ei ej k k' id r r' Gi Gj X Y. destruct (retyped_zget _ _ _ _ R Gi) as (a & Ga & _ & A). destruct (retyped_zget _ _ _ _ R Gj) as (b & Gb & _ & B).
  rewrite A in X. rewrite B in Y. exact (C _ _ _ _ _ _ _ _ _ Ga Gb X Y).
Qed.
Lemma empty_sane : sane (mkPres [] 0).
Proof.
  split.
  - intros q e G. apply zget_Some_inv in G. cbn in G. lia.
  - intros q e k id r G. apply zget_Some_inv in G. cbn in G. lia.
  - intros i j ei ej k k' id r r' G. apply zget_Some_inv in G. cbn in G. lia.
  - intros q r (e & G & _). apply zget_Some_inv in G. cbn in G. lia.
Qed.
(** definitions without nodes that begin with the end of input *)
Lemma tokensOnly firsts defs : (forall d i t, In d defs -> mentions d i -> In t (firstsOf firsts i) -> 0 <= t) ->
  exists f', tokensFirst f' /\ forall p, buildNodes firsts defs p = buildNodes f' defs p.
Proof.
  intros TF. set (f' := map (filter (fun t => 0 <=? t)) firsts).
  assert (FE : forall i, firstsOf f' i = filter (fun t => 0 <=? t) (firstsOf firsts i)).
  { intros j. unfold firstsOf, f'. unfold zget. destruct (j <? 0); [reflexivity|]. rewrite nth_error_map. destruct (nth_error firsts (Z.to_nat j)); reflexivity. }
  exists f'. split.
  - intros j t I. rewrite FE in I. apply filter_In in I. apply Z.leb_le, I.
  - apply nodes_ext. intros d' j D' M. rewrite FE. symmetry. apply filter_same. intros t I. apply Z.leb_le. eapply TF; eassumption.
Qed.

(** ** C20 *)
(** Removal of unused states keeps the machine up to the numbers of the states, when no rule that skips
    something is shared ([skipsApart]). *)
Theorem drop_keeps_machine_partial firsts defs fs es :
  (forall d, In d defs -> written d /\ skipsApart d false = true) ->
  (forall d i t, In d defs -> mentions d i -> In t (firstsOf firsts i) -> 0 <= t) ->
  statesOf firsts defs fs es ->
  exists fs' es' phi, dropUnusedStates fs es = Some (fs', es') /\ sameMachine fs es fs' es' phi.
Proof.
  intros W TF (p & H & R). destruct (built_ready _ _ _ _ _ (fun d D => proj1 (W d D)) H R) as (OK & _ & NB & RG).
  destruct (tokensOnly firsts defs TF) as (f' & TF' & EX). rewrite EX in H. destruct (nodes_sane f' TF' defs W _ _ _ H empty_sane) as ([_ _ CO _] & _).
  destruct (drop_spec fs es OK (retyped_cellsOk _ _ R CO) NB) as (fs' & es' & phi & D & RN); [intros e r E I; apply (RG e r E I)|].
  exists fs', es', phi. split; [exact D|].
  assert (UB : forall x, inUse fs es x -> 0 <= x < zlen es).
  { intros x [X|(y & r & (e & G & I) & E & P)]; [apply NB, X|]. specialize (RG e r (zget_In _ _ _ G) I). lia. }
  assert (RE : forall x r, hasRule es x r -> renR phi r = rename phi r).
  { intros x r (e & G & I). specialize (RG e r (zget_In _ _ _ G) I). unfold renR, rename, FinalState in *. destruct r as [k s n]. cbn in *.
    destruct (Z.leb_spec 0 s); destruct (Z.eqb_spec s (-1)); try lia; subst; reflexivity. }
  split.
  - apply RN.
  - intros x X r'. rewrite (renumbered_rules _ _ _ _ _ x r' RN (proj1 (inUse_iff _ _ _) X) (UB x X)). split; intros (r & A & ->); exists r; (split; [exact A|]).
    + apply (RE x r A).
    + symmetry. apply (RE x r A).
  - intros x e X G. exists (renE phi e). split; [|reflexivity]. apply (rn_state _ _ _ _ _ RN); [apply inUse_iff, X|exact G].
  - intros x y X Y. apply (rn_inj _ _ _ _ _ RN); apply inUse_iff; assumption.
  - intros y e G. destruct (rn_only _ _ _ _ _ RN y e G) as (x & X & E). exists x. split; [apply inUse_iff, X|exact E].
Qed.
(** the same strings are accepted *)
Lemma same_machine_accepts fs es fs' es' phi : (forall y r, hasRule es y r -> FinalState <= rState r) -> (forall f, In f fs -> 0 <= f < zlen es) ->
  (forall x, inUse fs es x -> 0 <= x < zlen es) ->
  sameMachine fs es fs' es' phi -> forall f w, In f fs -> (accepts (hasRule es') (phi f) w <-> accepts (hasRule es) f w).
Proof.
  intros RG NB UB [S1 S2 S3 S4 S5].
  set (psi := fun x => if x =? FinalState then FinalState else phi x).
  assert (PH : forall x, inUse fs es x -> 0 <= phi x). { intros x X. destruct (zget_has es x (UB x X)) as (e & G & _). destruct (S3 x e X G) as (e' & G' & _). apply zget_Some_inv in G'. lia. }
  assert (PS : forall x, inUse fs es x -> psi x = phi x). { intros x X. unfold psi. destruct (Z.eqb_spec x FinalState); [|reflexivity]. specialize (UB x X). unfold FinalState in *. lia. }
  assert (NX : forall x r, hasRule es x r -> rState r = FinalState \/ inUse fs es (rState r)).
  { intros x r A. specialize (RG x r A). destruct (Z.eq_dec (rState r) FinalState); [auto|]. right. right. exists x, r. unfold FinalState in *. split; [exact A|]. split; [reflexivity|lia]. }
  assert (LB : forall r, label (rename phi r) = label r) by reflexivity.
  assert (BACK : forall j w, accepts (hasRule es') j w -> forall x, (x = FinalState \/ inUse fs es x) -> j = psi x -> accepts (hasRule es) x w).
  { induction 1 as [|j r' w HR A IH]; intros x X E.
    - destruct X as [->|X]; [constructor|]. rewrite (PS x X) in E. specialize (PH x X). unfold FinalState in E. lia.
    - destruct X as [->|X].
      + exfalso. unfold psi in E. rewrite Z.eqb_refl in E. subst j. destruct HR as (e & G & _). apply zget_Some_inv in G. unfold FinalState in G. lia.
      + rewrite (PS x X) in E. subst j. apply (S2 x X) in HR. destruct HR as (r & HR & ->). rewrite LB. constructor; [exact HR|]. apply IH; [eapply NX, HR|reflexivity]. }
  assert (FORTH : forall x w, accepts (hasRule es) x w -> (x = FinalState \/ inUse fs es x) -> accepts (hasRule es') (psi x) w).
  { induction 1 as [|x r w HR A IH]; intros X.
    - unfold psi. rewrite Z.eqb_refl. constructor.
    - destruct X as [->|X]; [destruct HR as (e & G & _); apply zget_Some_inv in G; unfold FinalState in G; lia|]. rewrite (PS x X), <- LB. constructor.
      + apply (S2 x X). exists r. auto.
      + apply IH. eapply NX, HR. }
  intros f w F. assert (X : inUse fs es f) by (left; exact F). rewrite <- (PS f X). split; [intros A; eapply BACK; eauto|intros A; apply FORTH; auto].
Qed.

Theorem drop_keeps_strings_partial firsts defs fs es :
  (forall d, In d defs -> written d /\ skipsApart d false = true) ->
  (forall d i t, In d defs -> mentions d i -> In t (firstsOf firsts i) -> 0 <= t) ->
  statesOf firsts defs fs es ->
  exists fs' es', dropUnusedStates fs es = Some (fs', es') /\ length fs' = length fs /\
    forall i f f' w, nth_error fs i = Some f -> nth_error fs' i = Some f' -> (accepts (hasRule es') f' w <-> accepts (hasRule es) f w).
Proof.
  intros W TF ST. destruct (drop_keeps_machine_partial firsts defs fs es W TF ST) as (fs' & es' & phi & D & S). exists fs', es'. split; [exact D|].
  pose proof (sm_first _ _ _ _ _ S) as E. split; [rewrite E; apply map_length|]. intros i f f' w F F'. rewrite E, nth_error_map, F in F'. injection F' as <-.
  destruct ST as (p & H & R). destruct (built_ready _ _ _ _ _ (fun d D => proj1 (W d D)) H R) as (OK & CF & NB & RG).
  apply (same_machine_accepts fs es fs' es' phi); [|exact NB| |exact S|eapply nth_error_In, F].
  - intros y r (e & G & I). apply (RG e r (zget_In _ _ _ G) I).
  - intros x [X|(y & r & (e & G & I) & E' & P)]; [apply NB, X|]. specialize (RG e r (zget_In _ _ _ G) I). lia.
Qed.

(** In every case removal of unused states does not fail, and states keep the tokens and the nodes of their rules; only the targets of
    shared rules may be wrong (see the refutation below). *)
Theorem drop_keeps_tokens firsts defs fs es : (forall d, In d defs -> written d) -> statesOf firsts defs fs es ->
  exists fs' es' phi, dropUnusedStates fs es = Some (fs', es') /\ fs' = map phi fs /\
    (forall x, inUse fs es x -> forall t n,
       (exists r', hasRule es' (phi x) r' /\ rToken r' = t /\ rNode r' = n) <-> (exists r, hasRule es x r /\ rToken r = t /\ rNode r = n)) /\
    (forall x y, inUse fs es x -> inUse fs es y -> phi x = phi y -> x = y) /\
    (forall y e, zget es' y = Some e -> exists x, inUse fs es x /\ phi x = y) /\
    (forall y r, hasRule es' y r -> rState r = FinalState \/ 0 <= rState r < zlen es').
Proof.
  intros W (p & H & R). destruct (built_ready _ _ _ _ _ W H R) as (OK & CF & NB & RG).
  destruct (drop_fair fs es OK CF NB) as (fs' & es' & phi & D & [S1 S2 S3 S4]); [intros e r E I; apply (RG e r E I)|].
  exists fs', es', phi. split; [exact D|]. split; [exact S1|].
  assert (UB : forall x, inUse fs es x -> 0 <= x < zlen es).
  { intros x [X|(y & r & (e & G & I) & E & P)]; [apply NB, X|]. specialize (RG e r (zget_In _ _ _ G) I). lia. }
  split; [|split; [|split]].
  - intros x X t n. destruct (zget_has es x (UB x X)) as (e & G & _). destruct (S2 x e (proj1 (inUse_iff _ _ _) X) G) as (e' & G' & L). split.
    + intros (r' & (e1 & G1 & I1) & <- & <-). rewrite G' in G1. injection G1 as <-. destruct (likeE_rules _ _ _ _ _ L (fun _ => Z.le_refl _) I1) as (r & I & A1 & A2 & _).
      exists r. split; [exists e; auto|]. split; congruence.
    + intros (r & (e1 & G1 & I1) & <- & <-). rewrite G in G1. injection G1 as <-. destruct (likeE_rules_back _ _ _ _ _ L (fun _ => Z.le_refl _) I1) as (r' & I & A1 & A2 & _).
      exists r'. split; [exists e'; auto|]. split; congruence.
  - intros x y X Y. apply S3; apply inUse_iff; assumption.
  - intros y e G. destruct (S4 y e G) as (x & X & E). exists x. split; [apply inUse_iff, X|exact E].
  - intros y r' (e' & G' & I'). destruct (S4 y e' G') as (x & X & E). subst y. destruct (zget_has es x (UB x (proj2 (inUse_iff _ _ _) X))) as (e & G & IE). destruct (S2 x e X G) as (e1 & G1 & L).
    rewrite G' in G1. injection G1 as <-. destruct (likeE_rules _ _ _ _ _ L (fun _ => Z.le_refl _) I') as (r & I & A1 & A2 & A3 & A4).
    specialize (RG e r IE I). unfold FinalState in *. destruct (Z.lt_ge_cases (rState r) 0) as [N|P]; [left; rewrite A3; lia|right; apply A4; lia].
Qed.

(** ** C21 *)
Definition compiled (tokens : list gtoken) (layers : list glayer) (names : list name) (firsts : list (list Z)) (defs : list chunk) (g : grammar) : Prop :=
  length names = length defs /\ exists fs es, statesOf firsts defs fs es /\ buildGrammar tokens layers names fs es = Some g.

Lemma combine_nodes names : forall nodes i n, length names = length nodes -> zget (map (fun '(n, f) => mkNode n f) (combine names nodes)) i = Some n -> zget nodes i = Some (gnFirst n).
Proof.
  unfold zget. intros nodes i n. destruct (i <? 0); [discriminate|]. generalize (Z.to_nat i) as k. revert nodes. induction names as [|x names IH]; intros nodes k L H; destruct nodes as [|f nodes]; try discriminate.
  - destruct k; discriminate.
  - destruct k as [|k]; [cbn in *; injection H as <-; reflexivity|]. cbn in *. apply IH in H; [exact H|lia].
Qed.
Lemma combine_len names nodes : length names = length nodes -> zlen (map (fun '(n, f) => mkNode n f) (combine names nodes)) = zlen nodes.
Proof. intros L. unfold zlen. rewrite map_length, combine_length. lia. Qed.
Lemma nodes_len firsts defs : forall p fs p', buildNodes firsts defs p = Some (fs, p') -> length fs = length defs.
Proof.
  induction defs as [|d ds IH]; intros p fs p' H; cbn [buildNodes] in H; [injection H as <- _; reflexivity|].
  destruct (addState p) as (f, p1). ob H. ob H. destruct x0 as (fs', p3). injection H as <- _. cbn. f_equal. eapply IH; eassumption.
Qed.
Lemma uses_node firsts d t n : uses firsts d t n -> n = SameNode \/ mentions d n.
Proof. induction 1 as [| | |? ? ? ? C _ IH|? ? ? ? ? ? C _ IH]; [auto|auto|right; constructor| |]; (destruct IH as [->|M]; [auto|right; econstructor; eassumption]). Qed.
Lemma mentions_pos d i : written d -> mentions d i -> 0 <= i.
Proof. intros W M. induction M as [|? ? ? C M IH|? ? ? ? ? C M IH]; inversion W; subst; auto. Qed.

(** Compilation of written definitions does not fail. *)
Theorem grammar_compiles tokens layers names firsts defs : (forall d, In d defs -> written d) -> length names = length defs ->
  exists g, compiled tokens layers names firsts defs g.
Proof.
  intros W L. destruct (compiles firsts defs W) as (fs & p & H & LF).
  pose proof (retyped_refl (prStates p)) as R.
  assert (ST : statesOf firsts defs fs (prStates p)) by (exists p; auto).
  destruct (built_ready _ _ _ _ _ W H R) as (OK & CF & NB & RG).
  destruct (drop_fair fs (prStates p) OK CF NB) as (fs' & es' & phi & D & [S1 S2 S3 S4]); [intros e r E I; apply (RG e r E I)|].
  assert (OK' : forall e, In e es' -> entryOk e).
  { intros e' E'. apply In_zget in E'. destruct E' as (y & G'). destruct (S4 y e' G') as (x & X & E). subst y.
    assert (Q : 0 <= x < zlen (prStates p)).
    { apply used_In in X. destruct X as [X|(e & r & E & R0 & P & ->)]; [apply NB, X|]. specialize (RG e r E R0). lia. }
    destruct (zget_has _ _ Q) as (e & G & I). destruct (S2 x e X G) as (e1 & G1 & LK). rewrite G' in G1. injection G1 as <-. eapply likeE_ok; [exact LK|apply OK, I]. }
  destruct (writeStates_spec es' [] [] [] [] OK' written_empty) as (sts & rules & multi & WS & _).
  eexists. split; [exact L|]. exists fs, (prStates p). split; [exact ST|]. unfold buildGrammar. rewrite D. cbn [obind]. rewrite WS. cbn [obind]. reflexivity.
Qed.

(** The tables are sound, whatever the definitions are. *)
Theorem compiled_tables_sound tokens layers names firsts defs g :
  (forall d, In d defs -> written d) -> (forall d i, In d defs -> mentions d i -> i < zlen defs) ->
  compiled tokens layers names firsts defs g -> tablesSound g.
Proof.
  intros W MB (LN & fs & es & (p & H & R) & B). pose proof (nodes_len _ _ _ _ _ H) as LF.
  destruct (built_ready _ _ _ _ _ W H R) as (OK & CF & NB & RG).
  destruct (drop_fair fs es OK CF NB) as (fs' & es' & phi & D & [S1 S2 S3 S4]); [intros e r E I; apply (RG e r E I)|].
  assert (UB : forall x, In x (usedStates fs es) -> 0 <= x < zlen es).
  { intros x X. apply used_In in X. destruct X as [X|(e & r & E & R0 & P & ->)]; [apply NB, X|]. specialize (RG e r E R0). lia. }
  assert (ORIG : forall e', In e' es' -> exists x e, zget es x = Some e /\ likeE (zlen es') (fun _ => zlen es') e' e).
  { intros e' E'. apply In_zget in E'. destruct E' as (y & G'). destruct (S4 y e' G') as (x & X & E). subst y.
    destruct (zget_has _ _ (UB x X)) as (e & G & I). destruct (S2 x e X G) as (e1 & G1 & LK). rewrite G' in G1. injection G1 as <-. eauto. }
  assert (OK' : forall e, In e es' -> entryOk e).
  { intros e' E'. destruct (ORIG e' E') as (x & e & G & LK). eapply likeE_ok; [exact LK|apply OK; eapply zget_In, G]. }
  destruct (writeStates_spec es' [] [] [] [] OK' written_empty) as (sts & rules & multi & WS & WR). cbn [app] in WR.
  unfold buildGrammar in B. rewrite D in B. cbn [obind] in B. rewrite WS in B. cbn [obind] in B. injection B as <-.
  assert (LES : length sts = length es') by apply WR.
  assert (WI : within (fun t n => n = SameNode \/ 0 <= n < zlen defs) p).
  { refine (proj2 (nodes_within firsts (fun t n => n = SameNode \/ 0 <= n < zlen defs) (or_introl eq_refl) defs _ _ _ _ H (fa_ok _ empty_fair) _)).
    - intros d0 D0. split; [apply W, D0|]. intros t n U. apply uses_node in U. destruct U as [->|M]; [auto|right]. split; [eapply mentions_pos, M; apply W, D0|eapply MB; eassumption].
    - intros q r (e & G & _). apply zget_Some_inv in G. cbn in G. lia. }
  assert (RT : forall r, In r rules -> (rState r = FinalState \/ 0 <= rState r < zlen sts) /\ (rNode r = SameNode \/ 0 <= rNode r < zlen defs)).
  { intros r0 R0. destruct (wr_src _ _ _ _ WR r0 R0) as (y & e' & G' & I'). destruct (ORIG e' (zget_In _ _ _ G')) as (x & e & G & LK).
    destruct (likeE_rules _ _ _ _ _ LK (fun _ => Z.le_refl _) I') as (r & I & A1 & A2 & A3 & A4). pose proof (RG e r (zget_In _ _ _ G) I) as Q. split.
    - unfold FinalState in *. destruct (Z.lt_ge_cases (rState r) 0) as [N|P]; [left; rewrite A3; lia|right; specialize (A4 P); unfold zlen in *; lia].
    - rewrite A2. apply (WI x r). apply (proj1 (retyped_has _ _ x r R)). exists e. auto. }
  split; cbn [gStates gRules gMultiRules gNodes].
  - intros st ST. eapply stateSound_of; eassumption.
  - apply WR.
  - apply WR.
  - intros r I. apply RT, I.
  - intros r I. rewrite combine_len; [|rewrite S1, map_length; congruence]. rewrite S1. unfold zlen at 1. rewrite map_length, LF. apply RT, I.
  - intros n I. apply In_zget in I. destruct I as (i & G). apply combine_nodes in G; [|rewrite S1, map_length; congruence].
    rewrite S1 in G. apply zget_In in G. apply in_map_iff in G. destruct G as (f & E & F). rewrite <- E.
    assert (U : In f (usedStates fs es)) by (apply used_In; auto). destruct (zget_has _ _ (UB f U)) as (e & G & _). destruct (S2 f e U G) as (e' & G' & _).
    apply zget_Some_inv in G'. unfold zlen in *. lia.
Qed.

(** *** Refutation of C20 *)
Lemma accepts_inv has i w : accepts has i w -> i <> FinalState -> exists r w', has i r /\ w = label r ++ w' /\ accepts has (rState r) w'.
Proof. intros A N. inversion A as [|j r w' H A']; subst; [contradiction|]. eauto. Qed.
(** [root = {$a, $b}, ([$c], [$d]), $e;]: there are unused states, a rule shared by the used ones is renumbered once for
    each of them.  After that the machine accepts [c a b e], which it did not before. *)
Theorem drop_keeps_strings_refuted : exists firsts defs fs es fs' es' f f' w,
  (forall d, In d defs -> nodeDef d /\ written d) /\
  (forall d i t, In d defs -> mentions d i -> In t (firstsOf firsts i) -> 0 <= t) /\
  statesOf firsts defs fs es /\ dropUnusedStates fs es = Some (fs', es') /\
  nth_error fs 0 = Some f /\ nth_error fs' 0 = Some f' /\
  accepts (hasRule es') f' w /\ ~ accepts (hasRule es) f w.
Proof.
  set (d := CGroup false false [CGroup true true [CTok 0; CTok 1]; CGroup false false [CGroup true false [CTok 2]; CGroup true false [CTok 3]]; CTok 4]).
  destruct (buildNodes [[0; 1; 2; 3; 4]] [d] (mkPres [] 0)) as [(fs, p)|] eqn:H; [|vm_compute in H; discriminate H].
  exists [[0; 1; 2; 3; 4]], [d], fs, (prStates p).
  destruct (dropUnusedStates fs (prStates p)) as [(fs', es')|] eqn:D; [|vm_compute in H; injection H as <- <-; vm_compute in D; discriminate D].
  exists fs', es', 0, 0, [STok 2; STok 0; STok 1; STok 4].
  assert (ST : statesOf [[0; 1; 2; 3; 4]] [d] fs (prStates p)). { exists p. split; [exact H|apply retyped_refl]. }
  split; [|split; [|split; [exact ST|split; [reflexivity|]]]].
  - intros c [<-|[]]. split; [eexists; reflexivity|]. apply W_group; try discriminate. intros c [<-|[<-|[<-|[]]]].
    + apply W_group; [discriminate|reflexivity|]. intros c [<-|[<-|[]]]; apply W_tok; lia.
    + apply W_group; try discriminate. intros c [<-|[<-|[]]]; (apply W_group; try discriminate; intros c [<-|[]]; apply W_tok; lia).
    + apply W_tok. lia.
  - assert (MG : forall opt rep l i, mentions (CGroup opt rep l) i -> exists c, In c l /\ mentions c i) by (intros opt rep l i M; inversion M; subst; eauto).
    intros c i t [<-|[]] M _. exfalso. apply MG in M. destruct M as (c & [<-|[<-|[<-|[]]]] & M); [| |inversion M].
    + apply MG in M. destruct M as (c & [<-|[<-|[]]] & M); inversion M.
    + apply MG in M. destruct M as (c & [<-|[<-|[]]] & M); apply MG in M; destruct M as (c & [<-|[]] & M); inversion M.
  - clear ST. vm_compute in H. injection H as <- <-. vm_compute in D. injection D as <- <-. split; [reflexivity|]. split; [reflexivity|]. split.
    + change [STok 2; STok 0; STok 1; STok 4] with (label (mkRule 2 3 SameNode) ++ label (mkRule AnyToken 0 SameNode) ++ label (mkRule 0 2 SameNode) ++
        label (mkRule 1 0 SameNode) ++ label (mkRule 4 FinalState SameNode) ++ []).
      repeat (apply A_rule; [eexists; split; [reflexivity|cbn; tauto]|]). apply A_end.
    + set (es := prStates _). intros A.
      (* the state 2 takes only e *)
      assert (A2 : forall w, accepts (hasRule es) 2 w -> w = [STok 4]).
      { intros w X. apply accepts_inv in X; [|discriminate]. destruct X as (r & w' & (e & G & I) & -> & X). cbn in G. injection G as <-. cbn in I.
        destruct I as [<-|[]]. inversion X as [|? ? ? (e & G & _)]; subst; [reflexivity|]. discriminate G. }
      assert (A5 : forall w, accepts (hasRule es) 5 w -> w = [STok 4] \/ w = [STok 3; STok 4]).
      { intros w X. apply accepts_inv in X; [|discriminate]. destruct X as (r & w' & (e & G & I) & -> & X). cbn in G. injection G as <-. cbn in I.
        destruct I as [<-|[<-|[]]]; apply A2 in X; subst w'; cbn; auto. }
      apply accepts_inv in A; [|discriminate]. destruct A as (r & w' & (e & G & I) & E & A). cbn in G. injection G as <-. cbn in I.
      destruct I as [<-|[<-|[<-|[<-|[<-|[]]]]]]; cbn in E; try discriminate E.
      * injection E as <-. apply A5 in A. destruct A; discriminate.
      * subst w'. apply A2 in A. discriminate.
Qed.

(** *** Examples *)
(** [root = {$a, $b}, ([$c], $d), $e; item = $f | $g, [$h];] has unused states and meets the conditions *)
Module Example1.
  Definition root := CGroup false false [CGroup true true [CTok 0; CTok 1]; CGroup false false [CGroup true false [CTok 2]; CTok 3]; CTok 4].
  Definition item := CGroup false false [CVar [CTok 5; CTok 6]; CGroup true false [CTok 7]].
  Definition defs := [root; item].
  Definition firsts := [[0; 2; 3]; [5; 6]].
  Example defs_ok : forall d, In d defs -> written d /\ skipsApart d false = true.
  Proof.
    intros c [<-|[<-|[]]]; (split; [|reflexivity]).
    - apply W_group; try discriminate. intros c [<-|[<-|[<-|[]]]].
      + apply W_group; [discriminate|reflexivity|]. intros c [<-|[<-|[]]]; apply W_tok; lia.
      + apply W_group; try discriminate. intros c [<-|[<-|[]]]; [|apply W_tok; lia]. apply W_group; try discriminate; intros c [<-|[]]; apply W_tok; lia.
      + apply W_tok. lia.
    - apply W_group; try discriminate. intros c [<-|[<-|[]]].
      + apply W_var; [discriminate|]. intros c [<-|[<-|[]]]; apply W_tok; lia.
      + apply W_group; try discriminate. intros c [<-|[]]. apply W_tok. lia.
  Qed.
  Example drops : exists fs es fs' es', statesOf firsts defs fs es /\ dropUnusedStates fs es = Some (fs', es') /\ (length es' < length es)%nat /\ fs <> fs'.
  Proof.
    destruct (buildNodes firsts defs (mkPres [] 0)) as [(fs, p)|] eqn:H; [|vm_compute in H; discriminate H].
    destruct (dropUnusedStates fs (prStates p)) as [(fs', es')|] eqn:D; [|vm_compute in H; injection H as <- <-; vm_compute in D; discriminate D].
    exists fs, (prStates p), fs', es'. split; [|split; [exact D|]].
    - exists p. split; [exact H|apply retyped_refl].
    - vm_compute in H. injection H as <- <-. vm_compute in D. injection D as <- <-. cbn. split; [lia|discriminate].
  Qed.
  Example tables : exists g, compiled [] [] [[1]; [2]] firsts defs g /\ tablesSound g.
  Proof.
    destruct (grammar_compiles [] [] [[1]; [2]] firsts defs (fun d D => proj1 (defs_ok d D)) eq_refl) as (g & C). exists g. split; [exact C|].
    eapply compiled_tables_sound; [intros d D; apply (defs_ok d D)| |exact C].
    assert (MG : forall opt rep l i, mentions (CGroup opt rep l) i -> exists c, In c l /\ mentions c i) by (intros opt rep l i M; inversion M; subst; eauto).
    assert (MV : forall l i, mentions (CVar l) i -> exists c, In c l /\ mentions c i) by (intros l i M; inversion M; subst; eauto).
    intros d i [<-|[<-|[]]] M; exfalso; apply MG in M.
    - destruct M as (c & [<-|[<-|[<-|[]]]] & M); [| |inversion M]; apply MG in M; destruct M as (c & [<-|[<-|[]]] & M); try (inversion M; fail).
      apply MG in M. destruct M as (c & [<-|[]] & M). inversion M.
    - destruct M as (c & [<-|[<-|[]]] & M); [apply MV in M; destruct M as (c & [<-|[<-|[]]] & M); inversion M|apply MG in M; destruct M as (c & [<-|[]] & M); inversion M].
  Qed.
End Example1.

Print Assumptions drop_keeps_machine_partial.
Print Assumptions drop_keeps_strings_partial.
Print Assumptions drop_keeps_tokens.
Print Assumptions drop_keeps_strings_refuted.
Print Assumptions grammar_compiles.
Print Assumptions compiled_tables_sound.
