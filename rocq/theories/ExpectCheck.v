(** Rules for nested nodes in grammars made of descriptions; a check that every node can be finished. *)
From Coq Require Import ZArith List Bool Lia Sorted Relations Permutation.
From Verif Require Import Base BaseProofs Grammar RulesSpec Parser ParserSpec ParserSafeSpec ParserFlowSpec LangBuild LangSpec LangProofs LangFrame LangComplete LangTotal
  TablesSpec LangTables LangDrop LangShare LangFair LangRules LangInv Prop_LangStates Prop_LangTables LangTreeSpec LangNodes LangNodesSpec LangNodesProofs LangFirst LangRecursion Prop_LangNodes Prop_LangGrammar
  LangTypes LangTypesSpec LangTypesProofs LangCompile Prop_LangCompile PredictSpec PredictTree Prop_Predict PredictCheck Prop_LangPredict ExpectSpec ExpectProofs ParserLook Prop_DescTree.
Import ListNotations.
Open Scope Z_scope.

(** ** Strings: tokens chosen for nested nodes do not matter *)
Inductive alike (st : Z -> Z -> Prop) : sym -> sym -> Prop :=
| AL_node i u u' : st i u' -> alike st (SNode i u) (SNode i u')
| AL_tok t : alike st (STok t) (STok t)
| AL_eoi : alike st SEoi SEoi.
Lemma derives_alike any st :
  (forall c w, derives any c w -> forall w', Forall2 (alike st) w w' -> derives st c w') /\
  (forall l w, derivesSeq any l w -> forall w', Forall2 (alike st) w w' -> derivesSeq st l w').
Proof.
  apply derives_both.
  - intros t w' H. inversion H as [|? y ? ? A B]; subst. inversion B; subst. inversion A; subst. constructor.
  - intros w' H. inversion H as [|? y ? ? A B]; subst. inversion B; subst. inversion A; subst. constructor.
  - intros i t _ w' H. inversion H as [|? y ? ? A B]; subst. inversion B; subst. inversion A; subst. constructor. assumption.
  - intros l c w C _ IH w' H. eapply D_variant; [exact C|apply IH, H].
  - intros opt rep l w _ IH w' H. constructor. apply IH, H.
  - intros rep l w' H. inversion H; subst. apply D_never.
  - intros opt l w v _ IH _ IH' w' H. apply Forall2_app_inv_l in H. destruct H as (a & b & A & B & ->). apply D_again; auto.
  - intros w' H. inversion H; subst. constructor.
  - intros c l w v _ IH _ IH' w' H. apply Forall2_app_inv_l in H. destruct H as (a & b & A & B & ->). constructor; auto.
Qed.

(** ** A check of tables: every node can be finished *)
Section Finish.
Variable g : grammar.
(** token types and literals there are tokens for *)
Variable good : Z -> bool.
Definition finishStep (known : list Z) : list Z :=
  filter (fun j => existsb (fun r => ((rState r =? FinalState) || existsb (Z.eqb (rState r)) known) &&
      (if rNode r =? SameNode then (rToken r =? AnyToken) || good (rToken r)
       else match zget (gNodes g) (rNode r) with Some nt => existsb (Z.eqb (gnFirst nt)) known | None => false end)) (rulesAt g j))
    (map Z.of_nat (seq 0 (length (gStates g)))).
Definition finishableB (fuel : nat) : bool :=
  forallb (fun j => existsb (Z.eqb j) (Nat.iter fuel finishStep [])) (map Z.of_nat (seq 0 (length (gStates g)))).
End Finish.

Section Sound.
Context {Tok Src W E Inst R : Type}.
Variable c : config Tok Src W E Inst R.
Notation g := (cGrammar c).
Notation tree := (tree Tok Inst R).
Notation tokenMatches := (tokenMatches (cType c) (cText c) (cUpper c) g).
Variable lexed : Tok -> Prop.
Variable good : Z -> bool.
Hypothesis goodOk : forall k, good k = true -> exists t, lexed t /\ tokenMatches t k.
Hypothesis GO : grammarOk c.

Lemma at_rule j r : In r (rulesAt g j) -> ruleOf g j r.
Proof.
  unfold rulesAt. destruct (zget (gStates g) j) as [st|] eqn:G; [|intros []]. destruct (go_tables _ GO) as (_ & T2). destruct (T2 _ _ G) as (rules & multi & SO & _). rewrite (so_rules _ _ _ _ SO). intros I.
  exists st, rules, multi, [r]. split; [exact G|]. split; [apply (so_rules _ _ _ _ SO)|]. split; [apply (so_multi _ _ _ _ SO)|]. split; [apply HR_one; auto|left; reflexivity].
Qed.
Definition done (j : Z) : Prop := exists ks : list tree, run (cType c) (cText c) (cUpper c) g j ks FinalState /\ forall t, In t (leavesL ks) -> lexed t.
Lemma iter_done n : forall j, In j (Nat.iter n (finishStep g good) []) -> done j.
Proof.
  induction n as [|n IH]; intros j; cbn [Nat.iter]; [intros []|]. intros I. apply filter_In in I as (_ & I). apply existsb_exists in I as (r & IR & B). apply at_rule in IR. apply andb_true_iff in B as (B1 & B2).
  assert (N : done (rState r)). { apply orb_true_iff in B1 as [B1|B1]; [apply Z.eqb_eq in B1; rewrite B1; exists []; split; [constructor|intros t []]|]. apply existsb_exists in B1 as (x & X & Y). apply Z.eqb_eq in Y. rewrite Y. apply IH, X. }
  destruct N as (ks & RK & LK). destruct (Z.eqb_spec (rNode r) SameNode) as [SN|SN].
  - destruct (Z.eqb_spec (rToken r) AnyToken) as [A|A]; cbn [orb] in B2.
    + exists ([] ++ ks). split; [|exact LK]. eapply run_app; [|exact RK]. eapply R_skip; [apply R_start|..]; eassumption.
    + destruct (goodOk _ B2) as (t & LT & TM). exists (([] ++ [Leaf t]) ++ ks). split; [eapply run_app; [|exact RK]; eapply R_token; [apply R_start|..]; eassumption|].
      intros x X. cbn in X. destruct X as [<-|X]; [exact LT|apply LK, X].
  - destruct (zget (gNodes g) (rNode r)) as [nt|] eqn:G; [|discriminate]. apply existsb_exists in B2 as (x & X & Y). apply Z.eqb_eq in Y. subst x. destruct (IH _ X) as (kids & RD & LD).
    exists (([] ++ [Node (rNode r) None [] [] kids]) ++ ks). split; [eapply run_app; [|exact RK]; eapply R_node; [apply R_start|exact IR|exact SN|]; econstructor; eassumption|].
    intros x Y. cbn [app] in Y. unfold leavesL in Y. cbn [map concat] in Y. apply in_app_iff in Y as [Y|Y]; [rewrite leaves_node in Y; apply LD, Y|apply LK, Y].
Qed.
Lemma ofNode_state n j : ofNode c n j -> j = FinalState \/ exists st, zget (gStates g) j = Some st.
Proof.
  induction 1 as [n nt G|n j r O IH RU]; [right; apply (ParserSafeSpec.go_first _ GO _ _ G)|]. apply (go_state _ GO).
  destruct RU as (st & rules & multi & rs & G & SR & SM & HR & IR). inversion HR as [r0 I0 E0|m rs0 Im E1 E2]; subst; [destruct IR as [<-|[]]|].
  - eapply zslice_In; eassumption.
  - eapply zslice_In; eassumption.
Qed.
Theorem finishable_checked fuel : finishableB g good fuel = true -> finishable c lexed.
Proof.
  intros H n j O. unfold finishableB in H. rewrite forallb_forall in H. destruct (ofNode_state n j O) as [->|(st & G)]; [exists []; split; [constructor|intros t []]|].
  apply zget_Some_inv in G. assert (I : In j (map Z.of_nat (seq 0 (length (gStates g))))). { apply in_map_iff. exists (Z.to_nat j). unfold zlen in G. split; [lia|]. apply in_seq. lia. }
  specialize (H j I). apply existsb_exists in H as (x & X & Y). apply Z.eqb_eq in Y. subst x. apply (iter_done _ _ X).
Qed.
End Sound.

(** ** Rules for nested nodes *)
Section P.
Context {Tok Src W E Inst R : Type}.
Variable c : config Tok Src W E Inst R.
Notation g := (cGrammar c).
Notation tokenMatches := (tokenMatches (cType c) (cText c) (cUpper c) g).
Variable tokens : list gtoken.
Variable layers : list glayer.
Variable names : list name.
Variable cs : list chunk.
Variable lexed : Tok -> Prop.
Notation defs := (map Some cs).
Hypothesis RW : readWell tokens names defs.
Hypothesis SD : sound c cs lexed.
Hypothesis AB : allBegin defs.
Variable firsts : list (list Z).
Hypothesis FX : forall i t, 0 <= i < zlen defs -> (In t (firstsOf firsts i) <-> firstToken defs i t).
Hypothesis C : compiled tokens layers names firsts cs g.
Let WR := written_cs tokens names cs RW.
Let PL := is_plain c tokens names cs lexed RW SD AB firsts FX.

Lemma def_get i d : defined defs i d <-> zget cs i = Some d.
Proof. unfold defined. rewrite zget_map. destruct (zget cs i); cbn; split; congruence. Qed.
Lemma lengths : length (gNodes g) = length cs.
Proof. destruct (compiled_rules _ _ _ _ _ _ WR C) as (_ & _ & fs' & _ & _ & _ & _ & _ & FS & _ & LF' & _). rewrite <- LF', <- FS, map_length. reflexivity. Qed.
Lemma node_accepts i d nt : zget cs i = Some d -> zget (gNodes g) i = Some nt -> forall w, accepts (ruleOf g) (gnFirst nt) w <-> derives (fun i t => In t (firstsOf firsts i)) d w.
Proof. intros D N. eapply grammar_accepts_exactly_partial; eassumption. Qed.

(** the first rule that consumes something *)
Lemma accepts_head t : forall j w, accepts (ruleOf g) j w -> forall x w', w = x :: w' ->
  (forall k, x = STok k -> tokenMatches t k) -> (x = SEoi -> False) ->
  (forall i k, x = SNode i k -> tokenMatches t k /\ 0 <= k /\ exists nt, zget (gNodes g) i = Some nt /\ mayStart c (gnFirst nt) t) -> (forall k, x = STok k -> 0 <= k) -> mayStart c j t.
Proof.
  induction 1 as [|j r w RU AC IH]; intros x w' EW HT HE HN HP; [discriminate EW|]. unfold label in EW. destruct (Z.eqb_spec (rNode r) SameNode) as [SN|SN].
  - destruct (Z.eqb_spec (rToken r) AnyToken) as [A|A]; cbn [app] in EW.
    + eapply MS_skip; [exact RU|exact A|]. eapply IH; eassumption.
    + destruct (Z.eqb_spec (rToken r) EoiToken) as [X|X]; injection EW as <- <-; [destruct (HE eq_refl)|]. eapply MS_token; [exact RU|exact A|exact SN|apply HT; reflexivity].
  - injection EW as <- <-. destruct (HN _ _ eq_refl) as (TM & K0 & nt & G & M). eapply MS_node; [exact RU| |exact SN|exact TM|exact G|exact M]. intros X. unfold AnyToken in X. lia.
Qed.
Lemma first_starts t k : tokenMatches t k -> forall i, firstToken defs i k -> 0 <= k -> forall nt, zget (gNodes g) i = Some nt -> mayStart c (gnFirst nt) t.
Proof.
  intros TM i FT. assert (CH : forall i d x w, defined defs i d -> stringOf d (x :: w) -> forall x', alike (fun i t => In t (firstsOf firsts i)) x x' ->
      forall nt, zget (gNodes g) i = Some nt -> exists w', accepts (ruleOf g) (gnFirst nt) (x' :: w')).
  { intros i0 d x w G S x' AX nt N. assert (EX : exists w', Forall2 (alike (fun i t => In t (firstsOf firsts i))) w w').
    { assert (ALL : forall y, In y w -> exists y', alike (fun i t => In t (firstsOf firsts i)) y y').
      { intros [u| |j u] I; [eexists; constructor|eexists; constructor|]. assert (RG : 0 <= j < zlen defs).
        { apply (mentions_range tokens names cs RW d j); [eapply zget_In, def_get, G|]. eapply (proj1 (derives_node _)); [exact S|right; exact I]. }
        destruct (AB j RG) as (t1 & T1). exists (SNode j t1). constructor. apply (FX j t1 RG), T1. }
      clear - ALL. induction w as [|y w IH]; [exists []; constructor|]. destruct (ALL y (or_introl eq_refl)) as (y' & Y). destruct IH as (w' & F); [intros z Z; apply ALL; right; exact Z|]. exists (y' :: w'). constructor; assumption. }
    destruct EX as (w' & F). exists w'. apply (node_accepts i0 d nt); [apply def_get, G|exact N|]. eapply (proj1 (derives_alike _ _)); [exact S|constructor; assumption]. }
  induction FT as [i d k w G S|i d w G S|i d j u w k G S F IH]; intros K0 nt N.
  - destruct (CH i d _ w G S _ (AL_tok _ k) nt N) as (w' & A). eapply accepts_head; [exact A|reflexivity|..]; try discriminate; intros x X; injection X as <-; assumption.
  - exfalso. unfold EoiToken in K0. lia.
  - assert (RG : 0 <= j < zlen defs). { apply (mentions_range tokens names cs RW d j); [eapply zget_In, def_get, G|]. eapply (proj1 (derives_node _)); [exact S|left; reflexivity]. }
    assert (NJ : exists ntj, zget (gNodes g) j = Some ntj). { apply zget_in_range. pose proof lengths as L. unfold zlen in *. rewrite map_length in RG. lia. }
    destruct NJ as (ntj & NJ). destruct (CH i d _ w G S (SNode j k)) with (nt := nt) as (w' & A); [constructor; apply (FX j k RG), F|exact N|].
    eapply accepts_head; [exact A|reflexivity|..]; try discriminate. intros i0 k0 X. injection X as <- <-. split; [exact TM|]. split; [exact K0|]. exists ntj. split; [exact NJ|]. apply (IH TM K0 ntj NJ).
Qed.
Lemma is_exact : exactNodes c lexed.
Proof.
  constructor.
  - intros j r HR A. destruct (compiled_rule_tokens _ _ _ _ _ _ WR C j r HR) as [(_ & X)|(d & D & U)]; [exact X|exfalso]. apply uses_what in U. destruct U as [(_ & [M|X])|(M & I)].
    + pose proof (token_range tokens names cs RW d _ D M) as Y. rewrite A in Y. unfold AnyToken in Y. lia.
    + rewrite (proj2 (proj2 (proj2 (sd_defs _ _ _ SD d D)))) in X. discriminate.
    + pose proof (proj2 (pl_firsts _ _ PL d _ D M) _ I) as Y. rewrite A in Y. unfold AnyToken in Y. lia.
  - intros j r nt t HR RD SN G LT TM. destruct (compiled_rule_tokens _ _ _ _ _ _ WR C j r HR) as [(_ & X)|(d & D & U)]; [destruct (SN X)|]. apply uses_what in U. destruct U as [(X & _)|(M & I)]; [destruct (SN X)|].
    pose proof (proj2 (pl_firsts _ _ PL d _ D M) _ I) as K0. apply (FX _ _ (mentions_range tokens names cs RW d _ D M)) in I. eapply first_starts; eassumption.
Qed.
End P.
