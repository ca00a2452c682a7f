(** Variants of small examples can be listed. *)
From Coq Require Import ZArith List Bool Lia Arith.
From Verif Require Import Base BaseProofs Grammar Rules RulesSpec Prop_Rules Parser ParserSpec ParserSafeSpec ParserFlowSpec ParserProofs ParserInv ParserStream ParserLook ParserTermSpec LookLongest VariantSpec Variant PredictSpec StarSpec StarRun.
Import ListNotations.
Open Scope Z_scope.

Section P.
Context {Tok Src W E Inst R : Type}.
Variable c : config Tok Src W E Inst R.
Notation g := (cGrammar c).
Notation nodeRec := (nodeRec Tok Inst).
Notation step := (ParserLook.step c).
Notation brun := (ParserLook.brun c).
Notation findRules := (findRules (cType c) (cText c) (cUpper c) g).
Variables (view : Src -> list Tok) (eoi : Tok).
Notation input := (input c view eoi).
Hypothesis TO : tablesOk g.

Definition nexts (s : list nodeRec) (toks : list (option Tok)) : list (rule * list nodeRec * list (option Tok)) :=
  match s, toks with
  | n :: _, t :: ts => match (do st <- zget (gStates g) (nState n); findRules t st) with
                       | Some l => flat_map (fun r => match dryRule c t r s with Some (used, ls') => [(r, ls', if used : bool then ts else t :: ts)] | None => [] end) l
                       | None => [] end
  | _, _ => []
  end.
Lemma brun_nexts s toks rs s2 rem : brun s toks rs s2 rem ->
  (rs = [] /\ s2 = s /\ rem = toks) \/ exists r s1 toks1 rs', rs = r :: rs' /\ In (r, s1, toks1) (nexts s toks) /\ brun s1 toks1 rs' s2 rem.
Proof.
  intros B. apply brun_head in B as [B|(r & rs' & s1 & toks1 & -> & S & B)]; [left; exact B|]. right. exists r, s1, toks1, rs'. split; [reflexivity|]. split; [|exact B].
  inversion S as [n ls t ts r1 st l cons ls' A1 A2 A3 A4]; subst. cbn [nexts]. rewrite A1. cbn [obind]. rewrite A2. apply in_flat_map. exists r. split; [exact A3|]. rewrite A4. left. reflexivity.
Qed.
Lemma nexts_step s toks r s1 toks1 : In (r, s1, toks1) (nexts s toks) -> step s toks r s1 toks1.
Proof.
  unfold nexts. destruct s as [|n ls]; [intros []|]. destruct toks as [|t ts]; [intros []|]. destruct (zget (gStates g) (nState n)) as [st|] eqn:ES; [|intros []]. cbn [obind].
  destruct (findRules t st) as [l|] eqn:EF; [|intros []]. intros H. apply in_flat_map in H as (r1 & HI & H). destruct (dryRule c t r1 (n :: ls)) as [[cons ls']|] eqn:ED; [|destruct H]. destruct H as [H|[]]. injection H as <- <- <-. econstructor; eauto.
Qed.
Lemma conflict_rules t i : conflict c t i -> exists st r1 r2 l, zget (gStates g) i = Some st /\ findRules t st = Some (r1 :: r2 :: l).
Proof.
  intros [st rules multi keys rs NS RG ES E1 E2 K SEL LN]. exists st. destruct rs as [|r1 [|r2 l]]; try (cbn in LN; lia). exists r1, r2, l. split; [exact ES|].
  destruct (proj2 TO i st ES) as (rules' & multi' & SO & SM). pose proof (so_rules _ _ _ _ SO) as X1. pose proof (so_multi _ _ _ _ SO) as X2. rewrite E1 in X1. rewrite E2 in X2. injection X1 as <-. injection X2 as <-.
  destruct (rule_lookup_priority (cType c) (cText c) (cUpper c) g st rules multi t keys SO NS RG K) as (rs' & F & SEL').
  destruct (rule_lookup_unique (cType c) (cText c) (cUpper c) g st rules multi t keys keys _ _ SO K K SEL SEL') as (_ & <- & _). exact F.
Qed.
Lemma reading_runs first types src all rem : brun [mkNodeRec [] [] types RootNode first] (input src 1) all [] rem -> Forall (trailing c eoi) rem -> reading c view eoi first src all.
Proof. intros B F. destruct (variant_run c TO _ _ _ _ _ B) as (k & V & -> & _). exists k. split; [exact V|exact F]. Qed.
Lemma decided_runs first types src all :
  (forall m rs1 rs2 n ls t rem, all = rs1 ++ rs2 -> brun [mkNodeRec [] [] types RootNode first] (input src m) rs1 (n :: ls) (t :: rem) ->
     (exists st r1 r2 l, zget (gStates g) (nState n) = Some st /\ findRules t st = Some (r1 :: r2 :: l)) ->
     forall rsa rsb mid, rs2 = rsa ++ rsb -> brun [n] (t :: rem) rsa [] mid ->
     forall rs' l' rem', brun [n] (t :: rem) rs' l' rem' -> (exists x, rs2 = rs' ++ x) \/ (length mid < length rem')%nat \/ (length rem' = length mid /\ l' <> [])) ->
  decided c view eoi first src all.
Proof.
  intros H m rs1 rs2 k n i l t EA V EN CF rsa rsb K EB VA rs' k' l' VB. change (RootNode, first) with (pr (mkNodeRec (Tok:=Tok) (Inst:=Inst) [] [] types RootNode first)) in V.
  destruct (run_variant c TO _ _ _ _ _ V) as (ls & B & EM & LK). destruct ls as [|n1 ls]; [discriminate|]. cbn [map] in EM. assert (EP : pr n1 = (n, i)) by congruence. rewrite <- EP in VA, VB. assert (EI : nState n1 = i) by (change (snd (pr n1) = i); rewrite EP; reflexivity).
  destruct (skip_nth _ _ _ EN) as [ES _]. rewrite ES in *. destruct (run_variant c TO _ _ _ _ _ VA) as (la & BA & EMA & LA). destruct la; [|discriminate]. destruct (run_variant c TO _ _ _ _ _ VB) as (lb & BB & EMB & LB).
  pose proof (conflict_rules _ _ CF) as CR. rewrite <- EI in CR. destruct (H _ _ _ _ _ _ _ EA B CR _ _ _ EB BA _ _ _ BB) as [D|[D|[D1 D2]]]; [left; exact D| |].
  - right. left. rewrite !skipn_length in D. lia.
  - right. right. rewrite !skipn_length in D1. split; [lia|]. destruct lb; [congruence|]. cbn in EMB. subst l'. discriminate.
Qed.

Lemma quiet_adds (size : Src -> nat) : quietHooks c -> addsNothing c size.
Proof. intros Q. constructor; intros; [rewrite (qh_ctx _ Q)|rewrite (qh_newNode _ Q)|rewrite (qh_node _ Q)|rewrite (qh_token _ Q)|rewrite (qh_end _ Q)|erewrite (qh_create _ Q) by eassumption]; lia. Qed.
Lemma eager_finite : eager c view eoi -> finiteSource c (fun src => length (view src)).
Proof.
  intros [EE EF] types src src' t e H. destruct (EF types src) as (src2 & E1 & E2). rewrite E1 in H. injection H as <- <- <-. rewrite E2. destruct (view src) as [|a l]; cbn; (split; [lia|]); intros tok X NX; [injection X as <-; contradiction|lia].
Qed.
Lemma eager_always : eager c view eoi -> alwaysToken c.
Proof. intros [EE EF] types src src' H. destruct (EF types src) as (src2 & E1 & E2). rewrite E1 in H. discriminate. Qed.
End P.
