(** Tables made for definitions where each node stands for something: each node can be finished from wherever it is. *)
From Coq Require Import ZArith List Bool Lia.
From Verif Require Import Base BaseProofs Grammar RulesSpec Parser ParserSpec ParserTermSpec PredictSpec ExpectSpec LangBuild LangSpec LangProofs LangFrame LangComplete LangTreeSpec LangNodesSpec
  LangDrop LangFair LangTables LangRules LangRecursion Prop_LangStates Prop_LangTables Prop_LangGrammar PredictTree LangFinish.
Import ListNotations.
Open Scope Z_scope.

Lemma tokensOnly_keeps firsts defs : (forall d i t, In d defs -> mentions d i -> In t (firstsOf firsts i) -> 0 <= t) ->
  exists f', tokensFirst f' /\ (forall d i, In d defs -> mentions d i -> firstsOf f' i = firstsOf firsts i) /\ forall p, buildNodes firsts defs p = buildNodes f' defs p.
Proof.
  intros TF. set (f' := map (filter (fun t => 0 <=? t)) firsts).
  assert (FE : forall i, firstsOf f' i = filter (fun t => 0 <=? t) (firstsOf firsts i)).
  { intros j. unfold firstsOf, f'. unfold zget. destruct (j <? 0); [reflexivity|]. rewrite nth_error_map. destruct (nth_error firsts (Z.to_nat j)); reflexivity. }
  assert (FS : forall d i, In d defs -> mentions d i -> firstsOf f' i = firstsOf firsts i).
  { intros d j D M. rewrite FE. apply filter_same. intros t I0. apply Z.leb_le. eapply TF; eassumption. }
  exists f'. split; [|split; [exact FS|]].
  - intros j t I0. rewrite FE in I0. apply filter_In in I0. apply Z.leb_le, I0.
  - apply nodes_ext. intros d' j D' M. symmetry. eapply FS; eassumption.
Qed.
(** every state that is made can be finished *)
Lemma states_alive firsts defs fs p : (forall d, In d defs -> nodeDef d /\ written d) ->
  (forall d i, In d defs -> mentions d i -> firstsOf firsts i <> [] /\ forall t, In t (firstsOf firsts i) -> 0 <= t) ->
  buildNodes firsts defs (mkPres [] 0) = Some (fs, p) -> forall q, 0 <= q < zlen (sts p) -> alive p q.
Proof.
  intros W FN H q Q. destruct (tokensOnly_keeps firsts defs) as (f' & TF & FS & EX); [intros d i t D M; apply (FN d i D M)|]. rewrite EX in H.
  assert (BG : forall d, In d defs -> begun f' d).
  { intros d D i M. destruct (FN d i D M) as (NE & _). unfold LangComplete.starts. rewrite (FS d i D M). destruct (firstsOf firsts i) as [|t l]; [contradiction|]. exists t. left. reflexivity. }
  assert (T0 : tidy (mkPres [] 0)).
  { split; [intros x e G; apply zget_Some_inv in G; cbn in G; lia|intros x r (e & G & _)..]; apply zget_Some_inv in G; cbn in G; lia. }
  apply (nodes_news f' TF defs) with (p := mkPres [] 0) (fs := fs) (p' := p); auto.
  - intros d D. split; [apply W, D|apply BG, D].
  - intros f F. apply In_nth_error in F. destruct F as (j & F). pose proof (nodes_len _ _ _ _ _ H) as LN.
    destruct (nth_error defs j) as [d|] eqn:G; [|apply nth_error_None in G; assert (nth_error fs j <> None) as X by congruence; apply nth_error_Some in X; lia].
    pose proof (nth_error_In _ _ G) as D. destruct (begun_string f' d (proj2 (W d D)) (BG d D)) as (w & DW). exists w.
    eapply (nodes_complete f' TF defs); [|exact H|exact T0|exact G|exact F|exact DW]. intros d' D'. destruct (W d' D') as ((l & ->) & W'). eauto.
Qed.

Section T.
Context {Tok Src W E Inst R : Type}.
Variable c : config Tok Src W E Inst R.
Notation g := (cGrammar c).
Notation tokenMatches := (tokenMatches (cType c) (cText c) (cUpper c) g).
Notation derived := (derived (Inst:=Inst) (R:=R) (cType c) (cText c) (cUpper c) g).
Notation run := (run (Inst:=Inst) (R:=R) (cType c) (cText c) (cUpper c) g).
Notation conforms := (conforms (Inst:=Inst) (R:=R) tokenMatches (fun t => isSide (cType c) g (Some t))).
Notation fits := (LangTreeSpec.fits (Inst:=Inst) (R:=R) tokenMatches (fun t => isSide (cType c) g (Some t))).
Notation fitsSeq := (LangTreeSpec.fitsSeq (Inst:=Inst) (R:=R) tokenMatches (fun t => isSide (cType c) g (Some t))).
Variable lexed : Tok -> Prop.
Variable firsts : list (list Z).
Variable defs : list chunk.
Notation odefs := (map Some defs).
Hypothesis PL : plain firsts defs.
Hypothesis EN : forall d, In d defs -> endless d = true.
Hypothesis RF : forall d i, In d defs -> mentions d i -> 0 <= i < zlen defs.
(** there are tokens for everything the definitions mention *)
Hypothesis TK : forall d k, In d defs -> mentionsToken d k -> exists t, lexed t /\ tokenMatches t k.

Lemma sides_none (l : list (tree Tok Inst R)) : withSides (fun t => isSide (cType c) g (Some t)) l l.
Proof. induction l; constructor; assumption. Qed.
Definition lexedAll (l : list (tree Tok Inst R)) : Prop := forall t, In t (leavesL l) -> lexed t.
Lemma lexedAll_app a b : lexedAll a -> lexedAll b -> lexedAll (a ++ b).
Proof. intros A B t I0. unfold leavesL in *. rewrite map_app, concat_app, in_app_iff in I0. destruct I0; auto. Qed.
Lemma zget_odefs i d : LangNodesSpec.defined odefs i d -> zget defs i = Some d.
Proof. unfold LangNodesSpec.defined, zget. destruct (i <? 0); [discriminate|]. rewrite nth_error_map. destruct (nth_error defs (Z.to_nat i)); [|discriminate]. cbn. congruence. Qed.
Definition okPart (d : chunk) : Prop := (forall k, mentionsToken d k -> exists t, lexed t /\ tokenMatches t k) /\ endless d = true.
Lemma okPart_group opt rep l d : okPart (CGroup opt rep l) -> In d l -> okPart d.
Proof. intros (A & B) D. cbn [endless] in B. rewrite forallb_forall in B. split; [intros k M; apply A; econstructor; eassumption|apply B, D]. Qed.
Lemma produces_fits : (forall d w, produces odefs d w -> okPart d -> exists ts, fits defs d ts /\ lexedAll ts) /\
  (forall l w, producesSeq odefs l w -> (forall d, In d l -> okPart d) -> exists ts, fitsSeq defs l ts /\ lexedAll ts).
Proof.
  assert (NIL : lexedAll []) by (intros t []).
  apply (produces_both odefs).
  - intros k (A & _). destruct (A k (MT_tok k)) as (t & L & M). exists [Leaf t]. split; [constructor; exact M|]. intros u [<-|[]]. exact L.
  - intros (_ & B). discriminate B.
  - intros i d w D _ IH _. apply zget_odefs in D. pose proof (LangDrop.zget_In _ _ _ D) as I0. destruct IH as (ts & F & L); [split; [intros k M; eapply TK; eassumption|apply EN, I0]|].
    exists [Node i None [] [] ts]. split; [constructor; econstructor; [exact D|apply sides_none|exact F]|]. intros t T. unfold leavesL in T. cbn [map concat] in T. rewrite app_nil_r, leaves_node in T. apply L. exact T.
  - intros l d w D _ IH (A & B). cbn [endless] in B. rewrite forallb_forall in B. destruct IH as (ts & F & L); [split; [intros k M; apply A; econstructor; eassumption|apply B, D]|]. exists ts. split; [econstructor; eassumption|exact L].
  - intros opt rep l w _ IH OK. destruct IH as (ts & F & L); [intros d D; eapply okPart_group; eassumption|]. exists ts. split; [constructor; exact F|exact L].
  - intros rep l _. exists []. split; [apply F_never|exact NIL].
  - intros opt l w v _ IH _ IH' OK. destruct IH as (ts & F & L); [intros d D; eapply okPart_group; eassumption|]. destruct (IH' OK) as (us & F' & L'). exists (ts ++ us). split; [apply F_again; assumption|apply lexedAll_app; assumption].
  - intros _. exists []. split; [constructor|exact NIL].
  - intros d l w v _ IH _ IH' OK. destruct IH as (ts & F & L); [apply OK; left; reflexivity|]. destruct IH' as (us & F' & L'); [intros d' D; apply OK; right; exact D|]. exists (ts ++ us). split; [constructor; assumption|apply lexedAll_app; assumption].
Qed.
Lemma node_tree i : productive odefs -> 0 <= i < zlen defs -> exists T, conforms defs i T /\ forall t, In t (ParserSpec.leaves T) -> lexed t.
Proof.
  intros PR I0. destruct (PR i) as (w & P); [unfold zlen in *; rewrite map_length; exact I0|]. destruct (proj1 produces_fits _ _ P) as (ts & F & L).
  - split; [intros k M; inversion M|reflexivity].
  - inversion F as [| |? T C| | | |]; subst. exists T. split; [exact C|]. intros t I1. apply L. unfold leavesL. cbn [map concat]. rewrite app_nil_r. exact I1.
Qed.

(** every node has a tree *)
Lemma tables_finish tokens layers names : (forall i, 0 <= i < zlen defs -> exists T, derived i T /\ forall t, In t (ParserSpec.leaves T) -> lexed t) ->
  compiled tokens layers names firsts defs g -> finishable c lexed.
Proof.
  intros NT C n y ON. assert (WR : forall d, In d defs -> written d) by (intros d D; apply (pl_defs _ _ PL d D)).
  assert (ACC : exists w, accepts (ruleOf g) y w).
  { destruct (compiled_rules _ _ _ _ _ _ WR C) as (fs & es & fs' & es' & ST & LF & DR & _ & FS & _ & LF' & RU).
    destruct (drop_keeps_machine_partial firsts defs fs es) as (fs1 & es1 & phi & DR1 & SM).
    { intros d D. split; [apply WR, D|apply (pl_skips _ _ PL), D]. }
    { intros d i t D M. apply (pl_firsts _ _ PL d i D M). }
    { exact ST. }
    rewrite DR in DR1. injection DR1 as <- <-. destruct ST as (p & BN & RT). pose proof (retyped_len _ _ RT) as ZE.
    destruct (built_ready _ _ _ _ _ WR BN RT) as (_ & _ & NB & BR).
    assert (HS : forall q r, hasRule es q r <-> has p q r) by (intros q r; apply (retyped_has _ _ q r RT)).
    assert (TG : forall q r, hasRule es q r -> FinalState <= rState r < zlen es). { intros q r (x & G & I0). apply (BR x r (LangDrop.zget_In _ _ _ G) I0). }
    set (is := fun x y => x = FinalState /\ y = FinalState \/ inUse fs es x /\ y = phi x).
    assert (UB : forall x, inUse fs es x -> 0 <= x < zlen es).
    { intros x [X|(q & r & H & <- & P)]; [apply NB, X|]. specialize (TG q r H). lia. }
    assert (NX : forall x r, hasRule es x r -> is (rState r) (rState (rename phi r))).
    { intros x r H. unfold rename. cbn [rState]. destruct (Z.eqb_spec (rState r) FinalState) as [EQ|EQ]; [left; auto|]. right. split; [|reflexivity]. right. exists x, r. specialize (TG x r H). unfold FinalState in *. split; [exact H|]. split; [reflexivity|lia]. }
    assert (RB : forall x y r', is x y -> ruleOf g y r' -> exists r, hasRule es x r /\ r' = rename phi r).
    { intros x z r' [(-> & ->)|(X & ->)] H; apply RU in H.
      - destruct H as (x & G & _). apply zget_Some_inv in G. unfold FinalState in G. lia.
      - apply (sm_rules _ _ _ _ _ SM x X) in H. exact H. }
    assert (IS : exists x, is x y).
    { induction ON as [n nt G|n y r' _ IH H].
      - unfold zget in G. destruct (Z.ltb_spec n 0) as [L|L]; [discriminate|].
        assert (F' : nth_error fs' (Z.to_nat n) = Some (gnFirst nt)) by (rewrite <- FS, nth_error_map, G; reflexivity).
        rewrite (sm_first _ _ _ _ _ SM), nth_error_map in F'. destruct (nth_error fs (Z.to_nat n)) as [f|] eqn:F; [|discriminate]. injection F' as F'.
        exists f. right. split; [left; eapply nth_error_In, F|auto].
      - destruct IH as (x & X). destruct (RB x y r' X H) as (r & HR & ->). exists (rState r). apply (NX x r HR). }
    destruct IS as (x & X). assert (AL : alive p x).
    { destruct X as [(-> & _)|(X & _)]; [exists []; constructor|]. eapply states_alive; [|exact (pl_firsts _ _ PL)|exact BN|rewrite <- ZE; apply UB, X]. intros d D. apply (pl_defs _ _ PL d D). }
    destruct AL as (v & A). exists (cut v). clear ON n. revert y X. induction A as [|x r w HR A IH]; intros y X.
    - destruct X as [(_ & ->)|(X & _)]; [constructor|]. specialize (UB _ X). unfold FinalState in UB. lia.
    - apply HS in HR. destruct X as [(-> & _)|(X & ->)]; [destruct HR as (e & G & _); apply zget_Some_inv in G; unfold FinalState in G; lia|].
      change (label r) with (label (rename phi r)). constructor; [apply RU, (sm_rules _ _ _ _ _ SM x X); eauto|]. apply IH. apply (NX x r HR). }
  destruct ACC as (w & A). assert (CO : exists core, Forall2 (stands (cType c) (cText c) (cUpper c) g derived) core w /\ lexedAll core).
  { clear ON. induction A as [|y r w HR A IH]; [exists []; split; [constructor|intros t []]|]. destruct IH as (core & F & L).
    enough (X : exists one, Forall2 (stands (cType c) (cText c) (cUpper c) g derived) one (label r) /\ lexedAll one).
    { destruct X as (one & F1 & L1). exists (one ++ core). split; [apply Forall2_app; assumption|apply lexedAll_app; assumption]. }
    unfold label. destruct (compiled_rule_tokens _ _ _ _ _ _ WR C y r HR) as [(X1 & X2)|(d & D & U)].
    - rewrite X1, X2. exists []. split; [constructor|intros t []].
    - apply uses_what in U. destruct U as [(X & [M|X'])|(M & I0)].
      + rewrite X, Z.eqb_refl. destruct (Z.eqb_spec (rToken r) AnyToken) as [Q|Q]; [exists []; split; [constructor|intros t []]|]. destruct (TK d _ D M) as (t & LX & TM). exists [Leaf t]. split.
        * destruct (Z.eqb_spec (rToken r) EoiToken) as [Q'|Q']; (constructor; [|constructor]); constructor; [rewrite <- Q'|]; exact TM.
        * intros u [<-|[]]. exact LX.
      + rewrite (EN d D) in X'. discriminate.
      + pose proof (RF d _ D M) as RG. destruct (Z.eqb_spec (rNode r) SameNode) as [Q|Q]; [unfold SameNode in Q; lia|]. destruct (NT _ RG) as (T & DT & LT). exists [T]. split.
        * constructor; [|constructor]. constructor. exact DT.
        * intros t I1. unfold leavesL in I1. cbn [map concat] in I1. rewrite app_nil_r in I1. apply LT, I1. }
  destruct CO as (core & F & L). exists core. split; [|exact L].
  apply (run_accepts (cType c) (cText c) (cUpper c) g y y w A [] core core (sides_none core) F). constructor.
Qed.
End T.
