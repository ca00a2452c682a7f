(** Grammars made of descriptions: their state machines and the definitions (C18, C19, C20 together), the trees
    of parses (C27) and the conditions of other theorems about parses (C34). *)
From Coq Require Import ZArith List Bool Lia Sorted.
From Verif Require Import Base BaseProofs Grammar RulesSpec Parser ParserSpec ParserSafeSpec ParserDemo Prop_Parser Prop_ParserSafe LangBuild LangSpec LangProofs LangFrame LangComplete LangSound LangTotal
  TablesSpec LangTables LangDrop LangShare LangFair LangRules Prop_LangStates Prop_LangTables LangTreeSpec.
Import ListNotations.
Open Scope Z_scope.

(** ** The tables and the states they are made of *)
Lemma compiled_rules tokens layers names firsts defs g : (forall d, In d defs -> written d) -> compiled tokens layers names firsts defs g ->
  exists fs es fs' es', statesOf firsts defs fs es /\ length fs = length defs /\ dropUnusedStates fs es = Some (fs', es') /\
    gTokens g = tokens /\ map gnFirst (gNodes g) = fs' /\ map gnName (gNodes g) = names /\ length fs' = length defs /\ (forall i r, ruleOf g i r <-> hasRule es' i r).
Proof.
  intros W (LN & fs & es & (p & H & R) & B). pose proof (nodes_len _ _ _ _ _ H) as LF. destruct (built_ready _ _ _ _ _ W H R) as (OK & CF & NB & RG).
  destruct (drop_fair fs es OK CF NB) as (fs' & es' & phi & D & [S1 S2 S3 S4]); [intros e r E I; apply (RG e r E I)|].
  exists fs, es, fs', es'. split; [exists p; auto|]. split; [exact LF|]. split; [exact D|].
  assert (UB : forall x, In x (usedStates fs es) -> 0 <= x < zlen es).
  { intros x X. apply used_In in X. destruct X as [X|(e & r & E & R0 & P & ->)]; [apply NB, X|]. specialize (RG e r E R0). lia. }
  assert (OK' : forall e, In e es' -> entryOk e).
  { intros e' E'. apply In_zget in E'. destruct E' as (y & G'). destruct (S4 y e' G') as (x & X & E). subst y.
    destruct (zget_has _ _ (UB x X)) as (e & G & I). destruct (S2 x e X G) as (e1 & G1 & LK). rewrite G' in G1. injection G1 as <-. eapply likeE_ok; [exact LK|apply OK, I]. }
  destruct (writeStates_spec es' [] [] [] [] OK' written_empty) as (sts & rules & multi & WS & WR). cbn [app] in WR.
  unfold buildGrammar in B. rewrite D in B. cbn [obind] in B. rewrite WS in B. cbn [obind] in B. injection B as <-. cbn [gTokens gNodes].
  assert (LF' : length fs' = length defs) by (rewrite S1, map_length; exact LF).
  split; [reflexivity|]. split; [|split; [|split; [exact LF'|]]].
  - clear - LN LF'. rewrite <- LN in LF'. clear LN. revert fs' LF'. induction names as [|n names IH]; intros [|f fs'] L; try discriminate; [reflexivity|]. cbn. f_equal. apply IH. cbn in L. lia.
  - clear - LN LF'. rewrite <- LN in LF'. clear LN. revert fs' LF'. induction names as [|n names IH]; intros [|f fs'] L; try discriminate; [reflexivity|]. cbn. f_equal. apply IH. cbn in L. lia.
  - intros i r. apply ruleOf_iff; assumption.
Qed.
Lemma accepts_ext (h h' : Z -> rule -> Prop) : (forall i r, h i r <-> h' i r) -> forall i w, accepts h i w <-> accepts h' i w.
Proof. intros E i w. split; induction 1; constructor; auto; apply E; assumption. Qed.

(** ** The end of input stands last *)
Lemma eoiLast_false c : eoiLast c false = true -> endless c = true.
Proof.
  induction c as [t| |i|opt rep l IH|l IH] using chunk_nest; intros H; try reflexivity; [discriminate H| |].
  - cbn [eoiLast] in H. cbn [endless]. apply forallb_forall. intros c C. apply IH; [exact C|]. clear IH.
    induction l as [|c0 l IL]; [destruct C|]. apply andb_true_iff in H. destruct H as (H1 & H2). destruct C as [->|C].
    + destruct l; exact H1.
    + apply IL; assumption.
  - cbn [eoiLast] in H. cbn [endless]. rewrite forallb_forall in H |- *. intros c C. apply IH; auto.
Qed.
Lemma cut_app w v : ~ In SEoi w -> cut (w ++ v) = w ++ cut v.
Proof. induction w as [|x w IH]; intros N; [reflexivity|]. cbn [app cut]. rewrite IH by (intros C; apply N; right; exact C). destruct x; [reflexivity| |reflexivity]. contradiction N. left. reflexivity. Qed.
Fixpoint eoiLastSeq (l : list chunk) (last : bool) : bool :=
  match l with [] => true | c :: l' => eoiLast c (match l' with [] => last | _ => false end) && eoiLastSeq l' last end.
Lemma eoiLast_group opt rep l last : eoiLast (CGroup opt rep l) last = eoiLastSeq l (last && negb rep).
Proof. cbn [eoiLast]. induction l as [|c l IH]; [reflexivity|]. cbn [eoiLastSeq]. rewrite <- IH. reflexivity. Qed.
Lemma eoiLast_seq l last : eoiLastSeq l last = true -> last = false -> forallb endless l = true.
Proof.
  intros H ->. induction l as [|c l IH]; [reflexivity|]. cbn [eoiLastSeq] in H. apply andb_true_iff in H. destruct H as (H1 & H2). cbn [forallb]. rewrite IH by exact H2.
  rewrite (eoiLast_false c); [reflexivity|]. destruct l; exact H1.
Qed.
Lemma derives_eoiLast st :
  (forall c w, derives st c w -> forall last, eoiLast c last = true -> cut w = w) /\
  (forall l w, derivesSeq st l w -> forall last, eoiLastSeq l last = true -> cut w = w).
Proof.
  apply derives_both.
  - reflexivity.
  - reflexivity.
  - reflexivity.
  - intros l c w C _ IH last E. cbn [eoiLast] in E. rewrite forallb_forall in E. apply (IH last), E, C.
  - intros opt rep l w _ IH last E. rewrite eoiLast_group in E. apply (IH _ E).
  - reflexivity.
  - intros opt l w v D IH D' IH' last E. pose proof E as E0. rewrite eoiLast_group in E. rewrite andb_false_r in E. rewrite cut_app.
    + f_equal. apply (IH' last E0).
    + apply (proj2 (derives_endless st) _ _ D). apply (eoiLast_seq l false E eq_refl).
  - reflexivity.
  - intros c l w v D IH D' IH' last E. cbn [eoiLastSeq] in E. apply andb_true_iff in E. destruct E as (E1 & E2). destruct l as [|c' l'].
    + inversion D'; subst. rewrite app_nil_r. apply (IH _ E1).
    + rewrite cut_app; [f_equal; apply (IH' _ E2)|]. apply (proj1 (derives_endless st) _ _ D). apply eoiLast_false, E1.
Qed.

(** The definitions are in the class where both the construction of states and removal of unused ones are right. *)
Record plain (firsts : list (list Z)) (defs : list chunk) : Prop := mkPlain {
  pl_defs : forall d, In d defs -> nodeDef d /\ written d;
  pl_loops : forall d, In d defs -> loopsApart d = true;
  pl_skips : forall d, In d defs -> skipsApart d false = true;
  pl_eoi : forall d, In d defs -> eoiLast d true = true;
  pl_firsts : forall d i, In d defs -> mentions d i -> firstsOf firsts i <> [] /\ forall t, In t (firstsOf firsts i) -> 0 <= t
}.

(** *** C18, C19 for the resulting grammar *)
(** The state machine of a node of the grammar accepts exactly the strings of the definition of the node. *)
Theorem grammar_accepts_exactly_partial tokens layers names firsts defs g i d nt :
  plain firsts defs -> compiled tokens layers names firsts defs g ->
  zget defs i = Some d -> zget (gNodes g) i = Some nt ->
  forall w, accepts (ruleOf g) (gnFirst nt) w <-> derives (fun i t => In t (firstsOf firsts i)) d w.
Proof.
  intros [P1 P2 P3 P4 P5] C D N w. destruct (compiled_rules _ _ _ _ _ _ (fun d D => proj2 (P1 d D)) C) as (fs & es & fs' & es' & ST & LF & DR & _ & FS & _ & LF' & RU).
  assert (W : forall d, In d defs -> written d /\ skipsApart d false = true) by (intros d' D'; split; [apply P1, D'|apply P3, D']).
  assert (TF : forall d i t, In d defs -> mentions d i -> In t (firstsOf firsts i) -> 0 <= t) by (intros d' i' t D' M; apply (P5 d' i' D' M)).
  destruct (drop_keeps_strings_partial firsts defs fs es W TF ST) as (fs1 & es1 & DR1 & _ & X). rewrite DR in DR1. injection DR1 as <- <-.
  rewrite (accepts_ext _ _ RU). unfold zget in D, N. destruct (i <? 0); [discriminate|].
  assert (F' : nth_error fs' (Z.to_nat i) = Some (gnFirst nt)) by (rewrite <- FS, nth_error_map, N; reflexivity).
  assert (F : exists f, nth_error fs (Z.to_nat i) = Some f).
  { destruct (nth_error fs (Z.to_nat i)) eqn:E; [eauto|]. apply nth_error_None in E. assert (Q : (Z.to_nat i < length fs')%nat) by (apply nth_error_Some; congruence). lia. }
  destruct F as (f & F). rewrite (X _ _ _ w F F'). destruct ST as (p & H & RT). rewrite (accepts_ext _ _ (fun i r => retyped_has _ _ i r RT)).
  assert (B : built defs fs d f) by (exists (Z.to_nat i); auto). pose proof (nth_error_In _ _ D) as ID. split.
  - intros A. destruct (compiled_accepts_only_partial firsts defs fs p d f w) as (w' & DV & ->); auto.
    + intros d' D'. split; [apply P1, D'|apply P2, D'].
    + intros d' j D' M. apply (P5 d' j D' M).
    + rewrite (proj1 (derives_eoiLast _) _ _ DV true (P4 d ID)). exact DV.
  - intros DV. rewrite <- (proj1 (derives_eoiLast _) _ _ DV true (P4 d ID)). eapply compiled_accepts_all_partial; eauto.
Qed.

(** ** Trees *)
Section Trees.
Context {Tok Inst R : Type} (ttype : Tok -> Z) (ttext : Tok -> list Z) (toUpper : list Z -> list Z).
Variable g : grammar.
Notation tree := (tree Tok Inst R).
Notation run := (run (Tok:=Tok) (Inst:=Inst) (R:=R) ttype ttext toUpper g).
Notation derived := (derived (Tok:=Tok) (Inst:=Inst) (R:=R) ttype ttext toUpper g).
Notation token := (tokenMatches ttype ttext toUpper g).
Notation side := (fun t => isSide ttype g (Some t)).
Notation withSides := (withSides (Inst:=Inst) (R:=R) side).
Notation fits := (fits (Inst:=Inst) (R:=R) token side).
Notation fitsSeq := (fitsSeq (Inst:=Inst) (R:=R) token side).
Notation conforms := (conforms (Inst:=Inst) (R:=R) token side).

(** a tree and a symbol *)
Inductive stands (P : Z -> tree -> Prop) : tree -> sym -> Prop :=
| ST_tok t k : token t k -> stands P (Leaf t) (STok k)
| ST_eoi t : token t EoiToken -> stands P (Leaf t) SEoi
| ST_node i t T : P i T -> stands P T (SNode i t).

Lemma withSides_app l core m core' : withSides l core -> withSides m core' -> withSides (l ++ m) (core ++ core').
Proof. induction 1; cbn; [auto|constructor; auto|constructor; auto]. Qed.
Lemma withSides_one T : withSides [T] [T].
Proof. constructor. constructor. Qed.

Scheme run_mind := Minimality for ParserSpec.run Sort Prop
with derived_mind := Minimality for ParserSpec.derived Sort Prop.

Variable defs : list chunk.
Variable starts : Z -> Z -> Prop.
Hypothesis exactly : forall i nt, zget (gNodes g) i = Some nt -> exists d, zget defs i = Some d /\ forall w, accepts (ruleOf g) (gnFirst nt) w <-> derives starts d w.
Hypothesis nodes : forall i d, zget defs i = Some d -> exists nt, zget (gNodes g) i = Some nt.
Hypothesis starting : forall d i, In d defs -> mentions d i -> exists t, starts i t.

Lemma fits_of :
  (forall d w, derives starts d w -> forall core, Forall2 (stands (conforms defs)) core w -> fits defs d core) /\
  (forall l w, derivesSeq starts l w -> forall core, Forall2 (stands (conforms defs)) core w -> fitsSeq defs l core).
Proof.
  apply derives_both.
  - intros t core F. inversion F as [|T ? core' ? S F']; subst. inversion F'; subst. inversion S; subst. constructor. assumption.
  - intros core F. inversion F as [|T ? core' ? S F']; subst. inversion F'; subst. inversion S; subst. constructor. assumption.
  - intros i t ST core F. inversion F as [|T ? core' ? S F']; subst. inversion F'; subst. inversion S; subst. constructor. assumption.
  - intros l c w C _ IH core F. econstructor; [exact C|apply IH, F].
  - intros opt rep l w _ IH core F. constructor. apply IH, F.
  - intros rep l core F. inversion F; subst. apply F_never.
  - intros opt l w v _ IH _ IH' core F. apply Forall2_app_inv_r in F. destruct F as (a & b & FA & FB & ->). apply F_again; auto.
  - intros core F. inversion F; subst. constructor.
  - intros c l w v _ IH _ IH' core F. apply Forall2_app_inv_r in F. destruct F as (a & b & FA & FB & ->). constructor; auto.
Qed.

(** runs of the machine as strings *)
Lemma derived_conforms i T : derived i T -> conforms defs i T.
Proof.
  set (P := fun i (ks : list tree) j => forall w', accepts (ruleOf g) j w' -> exists w core, withSides ks core /\ Forall2 (stands (conforms defs)) core w /\ accepts (ruleOf g) i (w ++ w')).
  revert i T. apply (derived_mind Tok Inst R ttype ttext toUpper g P (conforms defs)).
  - intros i w' A. exists [], []. split; [constructor|]. split; [constructor|exact A].
  - intros i ks j t _ IH S w' A. destruct (IH w' A) as (w & core & X1 & X2 & X3). exists w, core. split; [|auto]. rewrite <- (app_nil_r core). apply withSides_app; [exact X1|]. constructor; [exact S|constructor].
  - intros i ks j t r _ IH HR HN HT TM w' A. assert (A' : accepts (ruleOf g) j (label r ++ w')) by (constructor; assumption). destruct (IH _ A') as (w & core & X1 & X2 & X3).
    exists (w ++ label r), (core ++ [Leaf t]). split; [apply withSides_app; [exact X1|apply withSides_one]|]. split; [|rewrite <- app_assoc; exact X3]. apply Forall2_app; [exact X2|].
    unfold label. rewrite HN, Z.eqb_refl. apply Z.eqb_neq in HT. rewrite HT. destruct (Z.eqb_spec (rToken r) EoiToken) as [E|E].
    + constructor; [|constructor]. constructor. rewrite <- E. exact TM.
    + constructor; [|constructor]. constructor. exact TM.
  - intros i ks j r _ IH HR HN HT w' A. assert (A' : accepts (ruleOf g) j (label r ++ w')) by (constructor; assumption). destruct (IH _ A') as (w & core & X1 & X2 & X3).
    exists w, core. split; [exact X1|]. split; [exact X2|]. unfold label in X3. rewrite HN, HT in X3. exact X3.
  - intros i ks j r T _ IH HR HN _ CT w' A. assert (A' : accepts (ruleOf g) j (label r ++ w')) by (constructor; assumption). destruct (IH _ A') as (w & core & X1 & X2 & X3).
    exists (w ++ label r), (core ++ [T]). split; [apply withSides_app; [exact X1|apply withSides_one]|]. split; [|rewrite <- app_assoc; exact X3]. apply Forall2_app; [exact X2|].
    unfold label. apply Z.eqb_neq in HN. rewrite HN. constructor; [|constructor]. constructor. exact CT.
  - intros i nt t0 hooks results kids N _ IH. destruct (IH [] (A_end _)) as (w & core & X1 & X2 & X3). rewrite app_nil_r in X3.
    destruct (exactly i nt N) as (d & D & EX). apply EX in X3. econstructor; [exact D|exact X1|]. eapply (proj1 fits_of); eassumption.
Qed.

Scheme fits_mind := Minimality for LangTreeSpec.fits Sort Prop
with fitsSeq_mind := Minimality for LangTreeSpec.fitsSeq Sort Prop
with conforms_mind := Minimality for LangTreeSpec.conforms Sort Prop.

Lemma run_accepts i j w : accepts (ruleOf g) j w -> forall ks0 kids core, withSides kids core -> Forall2 (stands derived) core w -> run i ks0 j -> run i (ks0 ++ kids) FinalState.
Proof.
  assert (SD : forall kids core, withSides kids core -> forall ks0 j, run i ks0 j -> exists sides kids', kids = sides ++ kids' /\ run i (ks0 ++ sides) j /\
    withSides kids' core /\ match core with [] => kids' = [] | T :: core' => exists l, kids' = T :: l /\ withSides l core' end).
  { induction 1 as [|t l core S WS IH|T l core WS IH]; intros ks0 q RN.
    - exists [], []. rewrite (app_nil_r ks0). split; [reflexivity|]. split; [exact RN|]. split; [constructor|reflexivity].
    - destruct (IH (ks0 ++ [Leaf t]) q) as (sides & kids' & -> & X1 & X2 & X3); [constructor; assumption|]. exists (Leaf t :: sides), kids'. split; [reflexivity|]. split; [rewrite <- app_assoc in X1; exact X1|]. auto.
    - exists [], (T :: l). rewrite (app_nil_r ks0). split; [reflexivity|]. split; [exact RN|]. split; [constructor; exact WS|]. exists l. auto. }
  induction 1 as [|j r w HR A IH]; intros ks0 kids core WS F RN.
  - inversion F; subst. destruct (SD _ _ WS _ _ RN) as (sides & kids' & -> & X1 & X2 & ->). rewrite app_nil_r. exact X1.
  - unfold label in F. destruct (Z.eqb_spec (rNode r) SameNode) as [HN|HN]; [destruct (Z.eqb_spec (rToken r) AnyToken) as [HT|HT]|].
    + eapply IH; [exact WS|exact F|]. eapply R_skip; eassumption.
    + destruct core as [|T core]; [inversion F; subst; destruct (rToken r =? EoiToken); discriminate|].
      destruct (SD _ _ WS _ _ RN) as (sides & kids' & -> & X1 & X2 & (l & -> & X3)).
      assert (Y : (exists t, T = Leaf t /\ token t (rToken r)) /\ Forall2 (stands derived) core w).
      { destruct (Z.eqb_spec (rToken r) EoiToken) as [E|E]; cbn [app] in F; inversion F as [|? x ? w' S F']; subst; (split; [|exact F']); inversion S; subst; eexists; (split; [reflexivity|]); [rewrite E|]; assumption. }
      destruct Y as ((t & -> & TM) & F2). replace (ks0 ++ sides ++ Leaf t :: l) with (((ks0 ++ sides) ++ [Leaf t]) ++ l) by (rewrite <- !app_assoc; reflexivity).
      eapply IH; [exact X3|exact F2|]. eapply R_token; eassumption.
    + destruct core as [|T core]; [inversion F|].
      destruct (SD _ _ WS _ _ RN) as (sides & kids' & -> & X1 & X2 & (l & -> & X3)). inversion F as [|? x ? w' S F' E1 E2]; subst. inversion S; subst.
      replace (ks0 ++ sides ++ T :: l) with (((ks0 ++ sides) ++ [T]) ++ l) by (rewrite <- !app_assoc; reflexivity).
      eapply IH; [exact X3|exact F'|]. eapply R_node; eassumption.
Qed.

Lemma conforms_derived i T : conforms defs i T -> derived i T.
Proof.
  set (ok := fun c => forall j, mentions c j -> exists t, starts j t).
  apply (conforms_mind Tok Inst R token side defs
    (fun d core => ok d -> exists w, derives starts d w /\ Forall2 (stands derived) core w)
    (fun l core => (forall c, In c l -> ok c) -> exists w, derivesSeq starts l w /\ Forall2 (stands derived) core w) derived).
  - intros k t TM _. exists [STok k]. split; [constructor|]. constructor; [constructor; exact TM|constructor].
  - intros t TM _. exists [SEoi]. split; [constructor|]. constructor; [constructor; exact TM|constructor].
  - intros j U _ IH O. destruct (O j (M_node j)) as (t & S). exists [SNode j t]. split; [constructor; exact S|]. constructor; [constructor; exact IH|constructor].
  - intros l c ts C _ IH O. destruct IH as (w & D & F); [intros j M; apply O; econstructor; eassumption|]. exists w. split; [econstructor; eassumption|exact F].
  - intros opt rep l ts _ IH O. destruct IH as (w & D & F); [intros c C j M; apply O; econstructor; eassumption|]. exists w. split; [constructor; exact D|exact F].
  - intros rep l O. exists []. split; [apply D_never|constructor].
  - intros opt l ts us _ IH _ IH' O. destruct IH as (w & D & F); [intros c C j M; apply O; econstructor; eassumption|]. destruct (IH' O) as (v & D' & F').
    exists (w ++ v). split; [apply D_again; assumption|apply Forall2_app; assumption].
  - intros _. exists []. split; constructor.
  - intros c l ts us _ IH _ IH' O. destruct IH as (w & D & F); [apply O; left; reflexivity|]. destruct IH' as (v & D' & F'); [intros c' C; apply O; right; exact C|].
    exists (w ++ v). split; [constructor; assumption|apply Forall2_app; assumption].
  - intros j d t0 hooks results kids core D WS _ IH. destruct (nodes j d D) as (nt & N). destruct (exactly j nt N) as (d' & D' & EX). rewrite D in D'. injection D' as <-.
    destruct IH as (w & DV & F); [intros k M; eapply starting; [eapply zget_In, D|exact M]|]. econstructor; [exact N|].
    apply (run_accepts _ _ w (proj2 (EX w) DV) [] kids core WS F). constructor.
Qed.
End Trees.

(** *** Trees of the resulting grammar (C18, C19, C20, C27) *)
(** Trees allowed by the tables of the grammar are exactly the trees of the description, whatever the tokens are. *)
Theorem grammar_trees_exactly_partial {Tok Inst R} (ttype : Tok -> Z) ttext toUpper tokens layers names firsts defs g :
  plain firsts defs -> compiled tokens layers names firsts defs g ->
  forall i (T : tree Tok Inst R), derived ttype ttext toUpper g i T <->
    conforms (tokenMatches ttype ttext toUpper g) (fun t => isSide ttype g (Some t)) defs i T.
Proof.
  intros P C i T.
  destruct (compiled_rules _ _ _ _ _ _ (fun d D => proj2 (pl_defs _ _ P d D)) C) as (_ & _ & fs' & _ & _ & _ & _ & _ & FS & _ & LF' & _).
  assert (LN : length (gNodes g) = length defs) by (rewrite <- LF', <- FS, map_length; reflexivity).
  assert (EX : forall i nt, zget (gNodes g) i = Some nt -> exists d, zget defs i = Some d /\ forall w, accepts (ruleOf g) (gnFirst nt) w <-> derives (fun i t => In t (firstsOf firsts i)) d w).
  { intros j nt N. destruct (zget_same (gNodes g) defs j nt LN N) as (d & D). exists d. split; [exact D|]. eapply grammar_accepts_exactly_partial; eassumption. }
  split.
  - apply (derived_conforms ttype ttext toUpper g defs (fun i t => In t (firstsOf firsts i)) EX).
  - apply (conforms_derived ttype ttext toUpper g defs (fun i t => In t (firstsOf firsts i)) EX).
    + intros j d D. exact (zget_same defs (gNodes g) j d (eq_sym LN) D).
    + intros d j D M. destruct (firstsOf firsts j) as [|t l] eqn:E; [destruct (proj1 (pl_firsts _ _ P d j D M) E)|]. exists t. left. reflexivity.
Qed.

(** ** Conditions of theorems about parses *)
Lemma sound_tablesOk g : tablesSound g -> tablesOk g.
Proof.
  intros [S1 _ _ S4 _ _]. split.
  - intros r I. unfold FinalState in *. destruct (S4 r I) as [->|X]; lia.
  - intros i st G. destruct (S1 st (zget_In _ _ _ G)) as [_ (rules & multi & A1 & A2 & A3 & A4 & A5 & A6)]. exists rules, multi. split; [split; auto|].
    + intros m M. destruct (A6 m M) as (rs & X & Y & _). exists rs. split; [exact X|]. intros ->. cbn in Y. lia.
    + intros m rs r M SL I. destruct (A6 m M) as (rs' & X & _ & Y). rewrite X in SL. injection SL as <-. apply Y, I.
Qed.
Lemma zget_in_range {A} (l : list A) i : 0 <= i < zlen l -> exists x, zget l i = Some x.
Proof. intros H. destruct (zget_has l i H) as (x & G & _). eauto. Qed.
Lemma uses_what firsts d t n : uses firsts d t n -> (n = SameNode /\ (mentionsToken d t \/ endless d = false)) \/ (mentions d n /\ In t (firstsOf firsts n)).
Proof.
  induction 1 as [t| |i t I|l c t n C _ IH|opt rep l c t n C _ IH].
  - left. split; [reflexivity|]. left. constructor.
  - left. split; [reflexivity|]. right. reflexivity.
  - right. split; [constructor|exact I].
  - destruct IH as [(-> & [M|E])|(M & I)].
    + left. split; [reflexivity|]. left. econstructor; eassumption.
    + left. split; [reflexivity|]. right. cbn [endless]. apply not_true_is_false. intros X. rewrite forallb_forall in X. rewrite (X c C) in E. discriminate.
    + right. split; [econstructor; eassumption|exact I].
  - destruct IH as [(-> & [M|E])|(M & I)].
    + left. split; [reflexivity|]. left. econstructor; eassumption.
    + left. split; [reflexivity|]. right. cbn [endless]. apply not_true_is_false. intros X. rewrite forallb_forall in X. rewrite (X c C) in E. discriminate.
    + right. split; [econstructor; eassumption|exact I].
Qed.
Lemma compiled_rule_tokens tokens layers names firsts defs g : (forall d, In d defs -> written d) -> compiled tokens layers names firsts defs g ->
  forall i r, ruleOf g i r -> (rToken r = AnyToken /\ rNode r = SameNode) \/ exists d, In d defs /\ uses firsts d (rToken r) (rNode r).
Proof.
  intros W C i r HR. destruct (compiled_rules _ _ _ _ _ _ W C) as (fs & es & fs' & es' & (p & H & RT) & LF & DR & _ & _ & _ & _ & RU).
  apply RU in HR.
  destruct (built_ready _ _ _ _ _ W H RT) as (OK & CF & NB & RG).
  destruct (drop_fair fs es OK CF NB) as (fs1 & es1 & phi & D & [S1 S2 S3 S4]); [intros e q E I; apply (RG e q E I)|]. rewrite DR in D. injection D as <- <-.
  destruct HR as (e' & G' & I'). destruct (S4 i e' G') as (x & X & E). subst i.
  assert (Q : 0 <= x < zlen es). { apply used_In in X. destruct X as [X|(e & q & E & R0 & P & ->)]; [apply NB, X|]. specialize (RG e q E R0). lia. }
  destruct (zget_has _ _ Q) as (e & G & I). destruct (S2 x e X G) as (e1 & G1 & LK). rewrite G' in G1. injection G1 as <-.
  destruct (likeE_rules _ _ _ _ _ LK (fun _ => Z.le_refl _) I') as (r0 & I0 & A1 & A2 & _). rewrite A1, A2.
  assert (WI : within (fun t n => (t = AnyToken /\ n = SameNode) \/ exists d, In d defs /\ uses firsts d t n) p).
  { refine (proj2 (nodes_within firsts (fun t n => (t = AnyToken /\ n = SameNode) \/ exists d, In d defs /\ uses firsts d t n) (or_introl (conj eq_refl eq_refl)) defs _ _ _ _ H (fa_ok _ empty_fair) _)).
    - intros d0 D0. split; [apply W, D0|]. eauto.
    - intros q r1 (e1 & G1 & _). apply zget_Some_inv in G1. cbn in G1. lia. }
  apply (WI x r0). apply (proj1 (retyped_has _ _ x r0 RT)). exists e. auto.
Qed.

(** A grammar made of a description without [$] is well formed (see ParserSafeSpec.v): no panics in parses, provided the same
    of lexers and hooks. *)
Theorem compiled_grammar_ok_partial {Tok Src W E Inst R} (c : config Tok Src W E Inst R) tokens layers names firsts defs :
  compiled tokens layers names firsts defs (cGrammar c) ->
  defs <> [] -> tokens <> [] ->
  (forall d, In d defs -> written d /\ endless d = true) ->
  (forall d i, In d defs -> mentions d i -> i < zlen defs /\ forall t, In t (firstsOf firsts i) -> 0 <= t < zlen tokens) ->
  (forall d t, In d defs -> mentionsToken d t -> 0 <= t < zlen tokens) ->
  grammarOk c.
Proof.
  intros C ND NT WR NR TR.
  assert (TS : tablesSound (cGrammar c)). { eapply compiled_tables_sound; [| |exact C]; [intros d D; apply WR, D|intros d i D M; apply (NR d i D M)]. }
  destruct (compiled_rules _ _ _ _ _ _ (fun d D => proj1 (WR d D)) C) as (_ & _ & fs' & _ & _ & _ & _ & GT & FS & _ & LF' & _).
  assert (LN : length (gNodes (cGrammar c)) = length defs) by (rewrite <- LF', <- FS, map_length; reflexivity).
  split.
  - apply sound_tablesOk, TS.
  - intros r I. destruct (ts_targets _ TS r I) as [X|X]; [auto|right]. apply zget_in_range, X.
  - intros r I. destruct (ts_nodes _ TS r I) as [X|X]; [auto|right]. apply zget_in_range, X.
  - intros i nt G. apply zget_in_range, (ts_firsts _ TS). eapply zget_In, G.
  - apply zget_in_range. unfold zlen, RootNode. rewrite LN. destruct defs; [contradiction|]. cbn. lia.
  - rewrite GT. exact NT.
  - intros i st G. destruct (TS) as [S1 _ _ _ _ _]. destruct (S1 st (zget_In _ _ _ G)) as [_ (rules & multi & A1 & A2 & A3 & A4 & A5 & A6)].
    assert (DEC : (exists r, ruleOf (cGrammar c) i r /\ rToken r = AnyToken) \/ (forall r, ruleOf (cGrammar c) i r -> rToken r <> AnyToken)).
    { assert (X : (exists r, In r rules /\ rToken r = AnyToken) \/ forall r, In r rules -> rToken r <> AnyToken).
      { clear. induction rules as [|r rules [(x & I & T)|IH]]; [right; intros r []| |]; [left; exists x; split; [right; exact I|exact T]|].
        destruct (Z.eq_dec (rToken r) AnyToken) as [T|T]; [left; exists r; split; [left; reflexivity|exact T]|]. right. intros x [<-|I]; auto. }
      assert (Y : (exists m, In m multi /\ mToken m = AnyToken) \/ forall m, In m multi -> mToken m <> AnyToken).
      { clear. induction multi as [|r rules [(x & I & T)|IH]]; [right; intros r []| |]; [left; exists x; split; [right; exact I|exact T]|].
        destruct (Z.eq_dec (mToken r) AnyToken) as [T|T]; [left; exists r; split; [left; reflexivity|exact T]|]. right. intros x [<-|I]; auto. }
      destruct X as [(r & I & T)|X].
      - left. exists r. split; [|exact T]. exists st, rules, multi, [r]. repeat (split; [assumption|]). split; [constructor; [exact I|reflexivity]|left; reflexivity].
      - destruct Y as [(m & I & T)|Y].
        + left. destruct (A6 m I) as (rs & SL & L & AT). destruct rs as [|r rs]; [cbn in L; lia|]. pose proof (AT r (or_introl eq_refl)) as RT. exists r. split; [|congruence].
          exists st, rules, multi, (r :: rs). repeat (split; [assumption|]). split; [econstructor 2; [exact I|congruence|exact SL]|left; reflexivity].
        + right. intros r (st' & rules' & multi' & rs & G' & B1 & B2 & HR & I). rewrite G in G'. injection G' as <-. rewrite A1 in B1. injection B1 as <-. rewrite A2 in B2. injection B2 as <-.
          inversion HR as [r0 R0 T0|m rs0 M T0 SL]; subst; [destruct I as [->|[]]; apply X, R0|]. rewrite <- T0. apply Y, M. }
    destruct DEC as [X|X]; [left; exact X|right]. intros r HR. apply zget_in_range. rewrite GT.
    destruct (compiled_rule_tokens _ _ _ _ _ _ (fun d D => proj1 (WR d D)) C i r HR) as [(Y & _)|(d & D & U)]; [destruct (X r HR Y)|].
    apply uses_what in U. destruct U as [(_ & [M|EN])|(M & I)]; [eapply TR; eassumption|rewrite (proj2 (WR d D)) in EN; discriminate|]. apply (NR d _ D M), I.
Qed.
(** The tree reported by a parse with such a grammar is a tree of the description. *)
Theorem parse_trees_conform_partial {Tok Src W E Inst R} (c : config Tok Src W E Inst R) tokens layers names firsts defs fuel w t0 r s :
  compiled tokens layers names firsts defs (cGrammar c) -> plain firsts defs ->
  (forall d i, In d defs -> mentions d i -> i < zlen defs) ->
  parseFrom c fuel w t0 = Done r s -> pLost s = false ->
  exists T unused, conforms (tokenMatches (cType c) (cText c) (cUpper c) (cGrammar c)) (fun t => isSide (cType c) (cGrammar c) (Some t)) defs RootNode T /\
    nodeEvents (rev (pLog s)) = trace (hookedIn (cNodeHooks c)) [] T /\
    somes (nexts (rev (pLog s))) = ParserSpec.leaves T ++ unused /\ (length unused <= 1)%nat.
Proof.
  intros C P NR H L.
  assert (TS : tablesSound (cGrammar c)). { eapply compiled_tables_sound; [|exact NR|exact C]. intros d D. apply (pl_defs _ _ P d D). }
  destruct (parse_is_derivation_partial c fuel w t0 r s (sound_tablesOk _ TS) H L) as (T & unused & D & X). exists T, unused. split; [|exact X].
  apply (grammar_trees_exactly_partial _ _ _ _ _ _ _ _ _ P C). exact D.
Qed.

(** *** Examples and refutations *)
(** the grammar made of definitions, with all types of tokens allowed in each state *)
Definition typed (types : Z) (es : list entry) : list entry := map (fun e => mkEntry types (ePos e) (eNeg e)) es.
Definition compile (types : Z) (tokens : list gtoken) (layers : list glayer) (names : list name) (firsts : list (list Z)) (defs : list chunk) : option grammar :=
  do x <- buildNodes firsts defs (mkPres [] 0) ; buildGrammar tokens layers names (fst x) (typed types (prStates (snd x))).
Lemma compile_compiled types tokens layers names firsts defs g : compile types tokens layers names firsts defs = Some g -> length names = length defs -> compiled tokens layers names firsts defs g.
Proof.
  unfold compile. intros H L. ob H. destruct x as (fs, p). split; [exact L|]. exists fs, (typed types (prStates p)). split; [|exact H]. exists p. split; [exact H0|].
  unfold retyped, typed. induction (prStates p); constructor; auto.
Qed.
Module Example1.
  (** [root = {item}, $e; item = $a | $x, [$b, {$c, $d}];], the token 5 is a side one *)
  Definition root := CGroup false false [CGroup true true [CNode 1]; CTok 6].
  Definition item := CGroup false false [CVar [CTok 0; CTok 1]; CGroup true false [CTok 2; CGroup true true [CTok 3; CTok 4]]].
  Definition defs := [root; item].
  Definition firsts := [[0; 1; 6]; [0; 1]].
  Definition tok (flags n : Z) := mkTok [n] [n] 0 flags.
  Definition tokens := [tok 0 97; tok 0 120; tok 0 98; tok 0 99; tok 0 100; tok SideToken 32; tok 0 101].
  Definition g0 := compile 127 tokens [] [[1]; [2]] firsts defs.
  Definition g := match g0 with Some g => g | None => mkGrammar [] [] [] [] [] [] end.
  Example g_compiled : compiled tokens [] [[1]; [2]] firsts defs g.
  Proof. apply (compile_compiled 127); [|reflexivity]. unfold g. replace g0 with (Some g) by (vm_compute; reflexivity). vm_compute. reflexivity. Qed.
  Lemma mentioned d i : In d defs -> mentions d i -> i = 1.
  Proof.
    assert (MG : forall opt rep l i, mentions (CGroup opt rep l) i -> exists c, In c l /\ mentions c i) by (intros opt rep l j M; inversion M; subst; eauto).
    assert (MV : forall l i, mentions (CVar l) i -> exists c, In c l /\ mentions c i) by (intros l j M; inversion M; subst; eauto).
    intros [<-|[<-|[]]] M; apply MG in M.
    - destruct M as (c & [<-|[<-|[]]] & M); [|inversion M]. apply MG in M. destruct M as (c & [<-|[]] & M). inversion M. reflexivity.
    - destruct M as (c & [<-|[<-|[]]] & M).
      + apply MV in M. destruct M as (c & [<-|[<-|[]]] & M); inversion M.
      + apply MG in M. destruct M as (c & [<-|[<-|[]]] & M); [inversion M|]. apply MG in M. destruct M as (c & [<-|[<-|[]]] & M); inversion M.
  Qed.
  Example defs_plain : plain firsts defs.
  Proof.
    split.
    - intros d [<-|[<-|[]]]; (split; [eexists; reflexivity|]); (apply W_group; try discriminate); intros c [<-|[<-|[]]].
      + apply W_group; [discriminate|reflexivity|]. intros c [<-|[]]. apply W_node. lia.
      + apply W_tok. lia.
      + apply W_var; [discriminate|]. intros c [<-|[<-|[]]]; apply W_tok; lia.
      + apply W_group; try discriminate. intros c [<-|[<-|[]]]; [apply W_tok; lia|]. apply W_group; [discriminate|reflexivity|]. intros c [<-|[<-|[]]]; apply W_tok; lia.
    - intros d [<-|[<-|[]]]; reflexivity.
    - intros d [<-|[<-|[]]]; reflexivity.
    - intros d [<-|[<-|[]]]; reflexivity.
    - intros d i D M. rewrite (mentioned d i D M). split; [discriminate|]. intros t [<-|[<-|[]]]; lia.
  Qed.
  Definition c := demo g [] true true.
  (** a parse of [x b c d c d a e] with side tokens: a tree of the description *)
  Example parsed : exists r s (T : tree dTok Z Z) unused, parseFrom c 100 ([(1, 1); (2, 2); (3, 3); (5, 9); (4, 4); (3, 5); (4, 6); (0, 7); (5, 9); (6, 8)], 0) (1, 1) = Done r s /\
    conforms (tokenMatches (cType c) (cText c) (cUpper c) g) (fun t => isSide (cType c) g (Some t)) defs RootNode T /\
    somes (nexts (rev (pLog s))) = ParserSpec.leaves T ++ unused /\ (length unused <= 1)%nat /\ (8 <= length (ParserSpec.leaves T))%nat.
  Proof.
    destruct (parseFrom c 100 ([(1, 1); (2, 2); (3, 3); (5, 9); (4, 4); (3, 5); (4, 6); (0, 7); (5, 9); (6, 8)], 0) (1, 1)) as [r s|e s| |s] eqn:H; [|vm_compute in H; discriminate H..].
    destruct (parse_trees_conform_partial c tokens [] [[1]; [2]] firsts defs _ _ _ r s g_compiled defs_plain (fun d i D M => ltac:(rewrite (mentioned d i D M); reflexivity)) H) as (T & unused & X1 & _ & X3 & X4).
    { vm_compute in H. injection H as _ <-. reflexivity. }
    exists r, s, T, unused. split; [reflexivity|]. split; [exact X1|]. split; [exact X3|]. split; [exact X4|].
    assert (L : length (somes (nexts (rev (pLog s)))) = 10%nat). { clear - H. vm_compute in H. injection H as _ <-. reflexivity. }
    rewrite X3, app_length in L. lia.
  Qed.
  Example ok : grammarOk c.
  Proof.
    apply (compiled_grammar_ok_partial c tokens [] [[1]; [2]] firsts defs g_compiled); try discriminate.
    - intros d D. split; [apply (pl_defs _ _ defs_plain d D)|]. destruct D as [<-|[<-|[]]]; reflexivity.
    - intros d i D M. rewrite (mentioned d i D M). split; [reflexivity|]. intros t [<-|[<-|[]]]; cbn; lia.
    - assert (MG : forall opt rep l i, mentionsToken (CGroup opt rep l) i -> exists c, In c l /\ mentionsToken c i) by (intros opt rep l j M; inversion M; subst; eauto).
      assert (MV : forall l i, mentionsToken (CVar l) i -> exists c, In c l /\ mentionsToken c i) by (intros l j M; inversion M; subst; eauto).
      assert (MT : forall k t, mentionsToken (CTok k) t -> t = k) by (intros k t M; inversion M; reflexivity).
      intros d t [<-|[<-|[]]] M; apply MG in M; destruct M as (x & [<-|[<-|[]]] & M).
      + apply MG in M. destruct M as (x & [<-|[]] & M). inversion M.
      + apply MT in M. subst. cbn. lia.
      + apply MV in M. destruct M as (x & [<-|[<-|[]]] & M); apply MT in M; subst; cbn; lia.
      + apply MG in M. destruct M as (x & [<-|[<-|[]]] & M); [apply MT in M; subst; cbn; lia|].
        apply MG in M. destruct M as (x & [<-|[<-|[]]] & M); apply MT in M; subst; cbn; lia.
  Qed.
End Example1.

(** The full statements fail: [root = [{$a}, $b];] is compiled, the parser accepts a lone [a], and no tree of the description
    has such leaves. *)
Lemma withSides_none {Tok Inst R} (side : Tok -> Prop) (l core : list (tree Tok Inst R)) : (forall t, ~ side t) -> withSides side l core -> l = core.
Proof. intros N. induction 1 as [|t l core S|T l core W IH]; [reflexivity|destruct (N t S)|rewrite IH; reflexivity]. Qed.
Theorem parse_trees_conform_refuted : exists tokens names firsts defs g r s,
  compiled tokens [] names firsts defs g /\ (forall d, In d defs -> nodeDef d /\ written d /\ endless d = true /\ skipsApart d false = true /\ forall i, ~ mentions d i) /\
  gMultiRules g = [] /\
  parseFrom (demo g [] true true) 50 ([(0, 1)], 0) (0, 1) = Done r s /\
  forall (T : tree dTok Z Z) unused, somes (nexts (rev (pLog s))) = ParserSpec.leaves T ++ unused -> (length unused <= 1)%nat ->
    ~ conforms (tokenMatches fst (fun _ => []) (fun x => x) g) (fun t => isSide fst g (Some t)) defs RootNode T.
Proof.
  set (tokens := [Example1.tok 0 97; Example1.tok 0 98]). set (defs := [CGroup false false [CGroup true false [CGroup true true [CTok 0]; CTok 1]]]).
  exists tokens, [[1]], [[0; 1]], defs. destruct (compile 3 tokens [] [[1]] [[0; 1]] defs) as [g|] eqn:C; [|vm_compute in C; discriminate C].
  exists g. destruct (parseFrom (demo g [] true true) 50 ([(0, 1)], 0) (0, 1)) as [r s|e s| |s] eqn:P; [|vm_compute in C; injection C as <-; vm_compute in P; discriminate P..].
  exists r, s. split; [eapply compile_compiled; [exact C|reflexivity]|]. split; [|split; [vm_compute in C; injection C as <-; reflexivity|]].
  - assert (MG : forall opt rep l i, mentions (CGroup opt rep l) i -> exists c, In c l /\ mentions c i) by (intros opt rep l j M; inversion M; subst; eauto).
    intros d [<-|[]]. split; [eexists; reflexivity|]. split; [|split; [reflexivity|split; [reflexivity|]]].
    + apply W_group; try discriminate. intros c [<-|[]]. apply W_group; try discriminate. intros c [<-|[<-|[]]]; [|apply W_tok; lia].
      apply W_group; [discriminate|reflexivity|]. intros c [<-|[]]. apply W_tok. lia.
    + intros i M. apply MG in M. destruct M as (c & [<-|[]] & M). apply MG in M. destruct M as (c & [<-|[<-|[]]] & M); [|inversion M]. apply MG in M. destruct M as (c & [<-|[]] & M). inversion M.
  - split; [reflexivity|]. intros T unused LV LU CF.
    assert (NX : somes (nexts (rev (pLog s))) = [(0, 1); dEoi]) by (vm_compute in C; injection C as <-; vm_compute in P; injection P as _ <-; reflexivity).
    rewrite NX in LV. clear NX P.
    assert (GT : gTokens g = tokens) by (vm_compute in C; injection C as <-; reflexivity).
    assert (NS : forall t : dTok, ~ isSide fst g (Some t)).
    { intros t (t' & _ & d & G & F). rewrite GT in G. apply zget_In in G. destruct G as [<-|[<-|[]]]; discriminate F. }
    assert (TM : forall (t : dTok) k, tokenMatches fst (fun _ => []) (fun x => x) g t k -> 0 <= k -> fst t = k).
    { assert (NL : forall (t : dTok) i, ~ literalFor fst (fun _ : dTok => []) (fun x => x) g t i).
      { intros t i L. destruct L as [d T0 N0 ((d' & G & F & _) & _)]. rewrite GT in G. apply zget_In in G. destruct G as [<-|[<-|[]]]; discriminate F. }
      intros t k (keys & K & I) Q. inversion K as [|t0 N0 E|t0 i L|t0 i L]; subst; [|destruct (NL _ _ L)..].
      destruct I as [E|[E|[]]]; [exact E|]. unfold AnyToken in E. lia. }
    inversion CF as [i d t0 hooks results kids core D WS FT E1 E2]. subst. cbn in D. injection D as <-. apply (withSides_none _ _ _ NS) in WS. subst core.
    assert (FG : forall opt l core, fits (Inst:=Z) (R:=Z) (tokenMatches fst (fun _ => []) (fun x => x) g) (fun t : dTok => isSide fst g (Some t)) defs (CGroup opt false l) core ->
        core = [] \/ fitsSeq (tokenMatches fst (fun _ => []) (fun x => x) g) (fun t : dTok => isSide fst g (Some t)) defs l core) by (intros opt l core0 F; inversion F; subst; auto).
    assert (X : kids = [] \/ exists ks t, kids = ks ++ [Leaf t] /\ fst t = 1).
    { apply FG in FT. destruct FT as [->|FT]; [auto|]. inversion FT as [|c l ts us F1 F2]; subst. inversion F2; subst. rewrite app_nil_r. apply FG in F1. destruct F1 as [->|F1]; [auto|].
      inversion F1 as [|c l vs us G1 G2]; subst. inversion G2 as [|c l xs ys H1 H2]; subst. inversion H2; subst. inversion H1; subst. right. eexists vs, _. split; [rewrite app_nil_r; reflexivity|].
      apply TM; [assumption|lia]. }
    destruct X as [->|(ks & t & -> & T1)].
    + cbn in LV. rewrite <- LV in LU. cbn in LU. lia.
    + assert (LS : ParserSpec.leaves (Node RootNode t0 hooks results (ks ++ [Leaf t])) = leavesL ks ++ [t]).
      { clear. cbn [ParserSpec.leaves]. unfold leavesL. induction ks as [|k ks IH]; [reflexivity|]. cbn [app map concat]. rewrite <- app_assoc, <- IH. reflexivity. }
      assert (LV2 : [(0, 1); dEoi] = (leavesL ks ++ [t]) ++ unused) by (rewrite <- LS; exact LV). clear LV. rename LV2 into LV. destruct unused as [|u [|u' l]]; [| |cbn in LU; lia].
      * rewrite app_nil_r in LV. change [(0, 1); dEoi] with ([(0, 1)] ++ [dEoi]) in LV. apply app_inj_tail in LV. destruct LV as (_ & <-). discriminate T1.
      * change [(0, 1); dEoi] with (([] ++ [(0, 1)]) ++ [dEoi]) in LV. apply app_inj_tail in LV. destruct LV as (LV & _). apply app_inj_tail in LV. destruct LV as (_ & <-). discriminate T1.
Qed.

Print Assumptions grammar_accepts_exactly_partial.
Print Assumptions grammar_trees_exactly_partial.
Print Assumptions compiled_grammar_ok_partial.
Print Assumptions parse_trees_conform_partial.
Print Assumptions parse_trees_conform_refuted.
