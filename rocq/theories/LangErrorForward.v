(** Reading of descriptions (LangText.v): there are no syntax errors in texts that are written right (LangDescSpec.v). *)
From Coq Require Import ZArith List Bool Lia.
From Verif Require Import Base BaseProofs Grammar LangBuild LangTypes LangString LangText LangTextSpec LangTextFuel LangTextTotal LangDescSpec LangDescParse LangErrorLocal LangErrorSteps LangErrorViable.
Import ListNotations.
Open Scope Z_scope.

(** tokens [ts'] are to be read next, or it is not the syntax that is wrong *)
Definition here (ts : list tok) (c : ctx) : Prop := at_ ts (core c) c.
Definition safe {A} (ts' : list tok) (r : res A) : Prop := match r with ROk _ c' => here ts' c' | RFail e _ => ~ syntax e | _ => True end.
Lemma s_bind {A B} ts1 ts' (m : M A) (f : A -> M B) c : safe ts1 (m c) -> (forall x c1, m c = ROk x c1 -> here ts1 c1 -> safe ts' (f x c1)) -> safe ts' (bind m f c).
Proof. intros S F. unfold bind. destruct (m c) as [x c1|e c1| |] eqn:E; try exact S. exact (F x c1 eq_refl S). Qed.
Lemma s_pure {A} ts (m : M A) c : pure m -> calm m -> here ts c -> safe ts (m c).
Proof. intros P C H. destruct (m c) as [x c1|e c1| |] eqn:E; cbn; try exact I; [exact (proj2 (pure_inv _ _ _ _ _ _ P H E))|exact (C _ _ _ E)]. Qed.
Lemma at_here ts c0 c : at_ ts c0 c -> here ts c.
Proof. intros A. unfold here. rewrite (at_core _ _ _ A). exact A. Qed.
Lemma s_strict {B} types t ts ts' (f : tok -> M B) c : here (t :: ts) c -> matches types t = true -> (forall c1, here ts c1 -> safe ts' (f t c1)) -> safe ts' (bind (fetchStrict types) f c).
Proof. intros H MT F. destruct (strict_hit _ _ _ _ _ H MT) as (c1 & E & A). rewrite (bind_ok _ _ _ _ _ E). apply F. exact (at_here _ _ _ A). Qed.
Lemma s_skip {B} b ts ts' (f : unit -> M B) c : here (op b :: ts) c -> (forall c1, here ts c1 -> safe ts' (f tt c1)) -> safe ts' (bind (skipOne [b]) f c).
Proof.
  intros H F. destruct (skip_hit [b] _ _ _ _ H) as (c1 & E & A); [apply matches_one; right; reflexivity|]. rewrite (bind_ok _ _ _ _ _ E). apply F. exact (at_here _ _ _ A).
Qed.
Lemma s_miss {B} types t ts ts' (f : option tok -> M B) c : here (t :: ts) c -> matches types t = false -> (forall c1, here (t :: ts) c1 -> safe ts' (f None c1)) -> safe ts' (bind (fetch types false) f c).
Proof. intros H MT F. destruct (fetch_miss _ _ _ _ _ H MT) as (c1 & E & A). rewrite (bind_ok _ _ _ _ _ E). apply F. exact (at_here _ _ _ A). Qed.
Lemma s_hit {B} types t ts ts' (f : option tok -> M B) c : here (t :: ts) c -> matches types t = true -> (forall c1, here ts c1 -> safe ts' (f (Some t) c1)) -> safe ts' (bind (fetch types false) f c).
Proof. intros H MT F. destruct (fetch_hit _ false _ _ _ _ H MT) as (c1 & E & A). rewrite (bind_ok _ _ _ _ _ E). apply F. exact (at_here _ _ _ A). Qed.
Lemma s_ret {A} (x : A) ts c : here ts c -> safe ts (ret x c). Proof. intros H. exact H. Qed.
(** ** Nodes *)
Lemma safe_seq :
  (forall ts1 x, spSeqQ ts1 x -> forall f ts' c, here (ts1 ++ ts') c -> noHead [commaTok; pipeTok] ts' -> safe ts' (parseGroup f c)) /\
  (forall ts1 x, spItemQ ts1 x -> forall f ts' c, here (ts1 ++ ts') c -> noHead [pipeTok] ts' -> safe ts' (parseMore f c) /\ safe ts' (parseVariants f c)) /\
  (forall ts1 x, spVarQ ts1 x -> forall f ts' c, here (ts1 ++ ts') c -> safe ts' (parseVariant f c)).
Proof.
  assert (NC : forall t, matches [commaTok; pipeTok] t = false -> matches [commaTok] t = false /\ matches [pipeTok] t = false).
  { intros t. unfold matches. cbn [existsb]. rewrite !orb_false_iff. tauto. }
  assert (LW : forall t, matches heads t = true -> matches [nameTok; tokenNameTok; stringTok; lBraceTok; lSquareTok; lCurlyTok] t = true) by auto.
  apply sp_ind.
  - intros ts i SP IH f ts' c H (t & ts2 & -> & MT). apply NC in MT. destruct MT as (M1 & M2). destruct f as [|f]; [exact I|]. cbn [parseGroup]. eapply s_bind; [apply (IH f _ _ H); exists t, ts2; auto|]. intros x c1 _ H1. eapply s_miss; [exact H1|exact M1|]. intros c2 H2. exact H2.
  - intros ts i ts2 l SP IH SQ IH2 f ts' c H NH. rewrite <- app_assoc in H. cbn [app] in H. destruct f as [|f]; [exact I|]. cbn [parseGroup]. eapply s_bind; [apply (IH f _ _ H); exists (op 44), (ts2 ++ ts'); split; reflexivity|]. intros x c1 _ H1. eapply s_hit; [exact H1|reflexivity|]. intros c2 H2.
    eapply s_bind; [apply (IH2 f _ _ H2 NH)|]. intros y c3 _ H3. exact H3.
  - intros ts v SP IH f ts' c H (t & ts2 & -> & MT). destruct f as [|f]; [split; exact I|]. split; cbn [parseMore parseVariants]; (eapply s_bind; [apply (IH f _ _ H)|]); intros x c1 _ H1; (eapply s_miss; [exact H1|exact MT|]); intros c2 H2; exact H2.
  - intros ts v ts2 l SP IH SQ IH2 f ts' c H NH. rewrite <- app_assoc in H. cbn [app] in H. destruct f as [|f]; [split; exact I|]. split; cbn [parseMore parseVariants]; (eapply s_bind; [apply (IH f _ _ H)|]); intros x c1 _ H1; (eapply s_hit; [exact H1|reflexivity|]); intros c2 H2; (eapply s_bind; [apply (IH2 f _ _ H2 NH)|]); intros y c3 _ H3; exact H3.
  - intros n f ts' c H. destruct f as [|f]; [exact I|]. cbn [parseVariant]. eapply s_strict; [exact H|apply matches_cons; left; left; reflexivity|]. intros c1 H1. cbn [tKind tText]. apply (s_pure ts' (let* i := addNode n false in ret (CNode i))); [pures|apply c_bind; [apply c_addNode|intros; apply c_ret]|exact H1].
  - intros n NE f ts' c H. destruct f as [|f]; [exact I|]. cbn [parseVariant]. eapply s_strict; [exact H|reflexivity|]. intros c1 H1. cbn [tKind tText]. rewrite (bind_ok _ _ _ _ _ (textFrom_1 36 n c1)). destruct n as [|x n]; [contradiction|]. apply (s_pure ts' (typeRef (x :: n))); [apply p_typeRef|apply c_typeRef|exact H1].
  - intros f ts' c H. destruct f as [|f]; [exact I|]. cbn [parseVariant]. eapply s_strict; [exact H|reflexivity|]. intros c1 H1. cbn [tKind tText]. rewrite (bind_ok _ _ _ _ _ (textFrom_1 36 [] c1)). exact H1.
  - intros t s (q & Q & ->) f ts' c H. destruct f as [|f]; [exact I|]. cbn [parseVariant]. eapply s_strict; [exact H|destruct Q as [-> | ->]; reflexivity|]. intros c1 H1. cbn [tKind tText]. rewrite (bind_ok _ _ _ _ _ (unquoted_q q s q c1)). apply (s_pure ts' (literalRef s)); [apply p_literalRef|apply c_literalRef|exact H1].
  - intros b ts l SQ IH f ts' c H. cbn [app] in H. rewrite <- app_assoc in H. cbn [app] in H. destruct f as [|f]; [exact I|]. cbn [parseVariant]. eapply s_strict; [exact H|destruct b; reflexivity|]. intros c1 H1.
    assert (NH : noHead [commaTok; pipeTok] (closingOf b :: ts')) by (exists (closingOf b), ts'; split; [reflexivity|destruct b; reflexivity]).
    destruct b; cbn [opening op tKind tText]; (eapply s_bind; [apply (IH f _ _ H1 NH)|]); intros x c2 _ H2; (eapply s_skip; [exact H2|]); intros c3 H3; exact H3.
Qed.
Lemma safe_node ts1 l n f ts' c : spSeqQ ts1 l -> here (op 61 :: ts1 ++ op 59 :: ts') c -> safe ts' (readNode f n c).
Proof.
  intros SP H. unfold readNode, parseNodeDef. eapply s_bind; [apply s_pure; [apply p_nodeFree|apply c_nodeFree|exact H]|]. intros u c1 _ H1. eapply s_bind; [apply s_pure; [apply p_addNode|apply c_addNode|exact H1]|]. intros i c2 _ H2. eapply s_skip; [exact H2|]. intros c3 H3.
  eapply s_bind; [apply (proj1 safe_seq _ _ SP f _ _ H3); exists (op 59), ts'; split; reflexivity|]. intros cs c4 _ H4. eapply s_skip; [exact H4|]. intros c5 H5. apply (s_pure ts' (modify (fun c => setNodes (cNames c) (upd (cDefs c) (Z.to_nat i) (Some (CGroup false false cs))) c))); [pures|apply c_modify|exact H5].
Qed.
(** ** Layers *)
Lemma safe_args ts1 l : spArgsQ ts1 l -> forall f ts' c, here (ts1 ++ op 41 :: ts') c -> safe ts' (parseArgs f c).
Proof.
  induction 1 as [t a SA|t a ts l SA SP IH]; intros f ts' c H; cbn [app] in H; (destruct f as [|f]; [exact I|]); cbn [parseArgs]; (eapply s_strict; [exact H|apply (larg_match t a c SA)|]); intros c1 H1; fold (argText t); rewrite (bind_ok _ _ _ _ _ (proj2 (larg_match t a c1 SA))); (eapply s_strict; [exact H1|reflexivity|]); intros c2 H2; [exact H2|].
  change (nameEqb (tText (op 44)) rBraceTok) with false. cbn iota. eapply s_bind; [apply (IH f _ _ H2)|]. intros y c3 _ H3. exact H3.
Qed.
Lemma args_head ts1 l ts' c : spArgsQ ts1 l -> here (ts1 ++ ts') c -> exists t ts3, ts1 ++ ts' = t :: ts3 /\ matches [rBraceTok] t = false.
Proof.
  intros SA A. pose proof (at_taken _ _ _ A) as FT. destruct SA as [t a SA|t a ts l' SA _]; inversion FT; subst; eexists _, _; (split; [reflexivity|eapply (larg_head (fun _ => true)); eassumption]).
Qed.
Lemma safe_commands ts1 l : spCommandsQ ts1 l -> forall f ts' c, here (ts1 ++ op 59 :: ts') c -> safe ts' (parseCommands f c).
Proof.
  induction 1 as [|ts x ts2 l SC SP IH]; intros f ts' c H; (destruct f as [|f]; [exact I|]); cbn [parseCommands].
  - eapply s_strict; [exact H|reflexivity|]. intros c1 H1. exact H1.
  - rewrite <- app_assoc in H.
    assert (K : forall n args c3, here (ts2 ++ op 59 :: ts') c3 -> safe ts' ((let* l := parseCommands f in ret (mkCmd n args :: l)) c3)) by (intros n args c3 H3; eapply s_bind; [apply (IH f _ _ H3)|]; intros y c4 _ H4; exact H4).
    destruct SC as [n|n ts l' SA]; cbn [app] in H; (eapply s_strict; [exact H|apply matches_cons; left; left; reflexivity|]); intros c1 H1; change (nameEqb (typeName (tKind (mkT KName n))) opTok) with false; cbn iota; (eapply s_skip; [exact H1|]); intros c2 H2; unfold bind at 1; unfold ignoreError.
    + destruct (fetch_hit [rBraceTok] false _ _ _ _ H2 eq_refl) as (c3 & E & A). rewrite E. unfold bind at 1. cbn [ret]. apply (K n []). exact (at_here _ _ _ A).
    + rewrite <- app_assoc in H2. cbn [app] in H2. destruct (args_head _ _ _ _ SA H2) as (t & ts3 & E & MT). rewrite E in H2. destruct (fetch_miss [rBraceTok] _ _ _ _ H2 MT) as (c3 & F & A). rewrite F. rewrite <- E in A. apply at_here in A. eapply s_bind; [apply (safe_args _ _ SA f _ _ A)|]. intros args c4 _ H4. eapply s_bind; [apply (IH f _ _ H4)|]. intros y c5 _ H5. exact H5.
Qed.
Lemma safe_layer ts1 l n f ts' c : spCommandsQ ts1 l -> here (mkT KName n :: ts1 ++ op 59 :: ts') c -> safe ts' (parseLayerDef f (op 64) c).
Proof.
  intros SP H. unfold parseLayerDef. change (negb (nameEqb (tText (op 64)) atTok)) with false. cbn iota. eapply s_strict; [exact H|apply matches_one; left; reflexivity|]. intros c1 H1. eapply s_bind; [apply (safe_commands _ _ SP f _ _ H1)|]. intros y c2 _ H2.
  apply (s_pure ts' (modify (fun c => setLayers (cLayers c ++ [mkLayer (tText (mkT KName n)) y]) c))); [pures|apply c_modify|exact H2].
Qed.
(** ** Directives and types *)
Lemma safe_all types l t ts' : Forall (fun t => matches types t = true) l -> matches types t = false -> forall f c, here (l ++ t :: ts') c -> safe (t :: ts') (fetchAll f types c) /\ forall l' c', fetchAll f types c = ROk l' c' -> l' = l.
Proof.
  intros F N. induction F as [|u l M F IH]; intros f c H; cbn [app] in H; (destruct f as [|f]; [split; [exact I|discriminate]|]); cbn [fetchAll].
  - destruct (fetch_miss types _ _ _ _ H N) as (c1 & E & A). rewrite (bind_ok _ _ _ _ _ E). split; [exact (at_here _ _ _ A)|]. intros l' c' X. injection X as <- _. reflexivity.
  - destruct (fetch_hit types false _ _ _ _ H M) as (c1 & E & A). rewrite (bind_ok _ _ _ _ _ E). apply at_here in A. destruct (IH f c1 A) as (S & EQ). split.
    + eapply s_bind; [exact S|]. intros x c2 _ H2. exact H2.
    + intros l' c' X. apply bind_inv in X. destruct X as (y & c2 & X & Y). injection Y as <- _. f_equal. exact (EQ _ _ X).
Qed.
Lemma safe_dir d l args f ts' c : Forall2 (spArg quotedOf d) l args -> here (l ++ op 59 :: ts') c -> safe ts' (parseDir f (mkT KDir (dirName d)) c).
Proof.
  intros F2 H. assert (FA : Forall (fun t => matches (argTypes d) t = true) l) by (clear H; induction F2; [apply Forall_nil|apply Forall_cons; [eapply arg_match; eassumption|assumption]]).
  destruct (safe_all _ _ _ ts' FA (matches_semi d) f c H) as (S & EQ). rewrite parseDir_is. eapply s_bind; [exact S|]. intros l' c1 X H1. rewrite (EQ _ _ X) in *. clear X. eapply s_skip; [exact H1|]. intros c2 H2. pose proof (c_dirActs (dirName d) l) as CA.
  destruct (dirActs (dirName d) l c2) as [u c3|e c3| |] eqn:E; cbn; try exact I; [|exact (CA _ _ _ E)]. rewrite (dirActs_is d l args F2) in E. exact (proj2 (pure_inv _ _ _ _ _ _ (p_directive d args) H2 E)).
Qed.
Section R.
Variable compiles : name -> bool.
Lemma safe_regexp l ps f ts' c : ps <> [] -> Forall2 spPart l ps -> here (op 61 :: l ++ op 59 :: ts') c -> safe ts' (regexpDef compiles f c).
Proof.
  intros NE F2 H. unfold regexpDef. eapply s_skip; [exact H|]. intros c1 H1. assert (FA : Forall (fun t => matches [regexpTok; nameTok] t = true) l) by (clear - F2; induction F2; [apply Forall_nil|apply Forall_cons; [eapply part_match; eassumption|assumption]]).
  destruct (safe_all [regexpTok; nameTok] _ (op 59) ts' FA eq_refl f c1 H1) as (S & EQ). eapply (s_bind (op 59 :: ts')); [unfold fetchRegexp; eapply s_bind; [exact S|]|].
  - intros l' c2 X H2. rewrite (EQ _ _ X) in *. clear X. destruct l as [|t l]; [inversion F2; subst; contradiction|]. destruct (joinRegexp (t :: l) c2) as [re c3|e c3| |] eqn:J; unfold bind; rewrite J; cbn; try exact I; [|exact (c_join _ _ _ _ J)]. rewrite (join_is _ _ F2) in J. pose proof (proj2 (pure_inv _ _ _ _ _ _ (p_iJoin ps) H2 J)) as H3. destruct (compiles re); cbn; [exact H3|nosyntax].
  - intros re c2 _ H2. eapply s_skip; [exact H2|]. intros c3 H3. exact H3.
Qed.
Lemma safe_head ts1 r ts' : spRecordQ ts1 r -> ~ isNode r -> exists t ts2, ts1 = t :: ts2 /\ matches starts t = true /\ tKind t <> KName /\ forall f c, here (ts2 ++ ts') c -> safe ts' (headRecord compiles f t c).
Proof.
  intros SP NN. destruct SP as [d ts args F|n ts ps NE F|n ts ps N0 NE F|n ts l SC|n ts l SC]; [| | | |exfalso; apply NN; exact I]; eexists _, _; (split; [reflexivity|]).
  - split; [apply matches_cons; right; apply matches_cons; left; left; reflexivity|]. split; [discriminate|]. intros f c H. rewrite <- app_assoc in H. exact (safe_dir _ _ _ _ _ _ F H).
  - split; [reflexivity|]. split; [discriminate|]. intros f c H. cbn [app] in H. rewrite <- app_assoc in H. unfold headRecord. cbn [tKind tText]. rewrite (bind_ok _ _ _ _ _ (textFrom_2 _ _ _ c)). unfold get at 1. unfold bind at 1. destruct (nget n (cTemplates c)); [cbn; nosyntax|]. rewrite template_is. eapply s_bind; [exact (safe_regexp _ _ f _ _ NE F H)|]. intros re c1 _ H1.
    apply (s_pure ts' (modify (fun c => setTemplates (nput n re (cTemplates c)) c))); [pures|apply c_modify|exact H1].
  - split; [reflexivity|]. split; [discriminate|]. intros f c H. cbn [app] in H. rewrite <- app_assoc in H. unfold headRecord. cbn [tKind tText]. rewrite (bind_ok _ _ _ _ _ (textFrom_1 _ _ c)). eapply s_bind; [apply s_pure; [apply p_typeDefined|apply c_typeDefined|exact H]|]. intros has c1 _ H1. destruct (has || nameEqb n []); [cbn; nosyntax|].
    rewrite tokenDef_is. eapply s_bind; [exact (safe_regexp _ _ f _ _ NE F H1)|]. intros re c2 _ H2. apply s_pure; [pures|apply c_addToken|exact H2].
  - split; [reflexivity|]. split; [discriminate|]. intros f c H. cbn [app] in H. rewrite <- app_assoc in H. unfold headRecord. cbn [tKind op]. exact (safe_layer _ _ _ f _ _ SC H).
Qed.
Lemma safe_readHead ts1 rs : spRecordsQ ts1 rs -> Forall (fun r => ~ isNode r) rs -> forall n ts' f c, here (ts1 ++ mkT KName n :: ts') c -> safe ts' (readHead compiles f c) /\ forall t c', readHead compiles f c = ROk t c' -> t = mkT KName n.
Proof.
  induction 1 as [|ts r ts2 rs SP SR IH]; intros NR n ts' f c H; (destruct f as [|f]; [split; [exact I|discriminate]|]); rewrite readHead_is.
  - cbn [app] in H. destruct (strict_hit starts _ _ _ _ H) as (c1 & E & A); [apply matches_cons; left; left; reflexivity|]. rewrite (bind_ok _ _ _ _ _ E). cbn [tKind]. split; [exact (at_here _ _ _ A)|]. intros t c' X. injection X as <- _. reflexivity.
  - inversion NR as [|? ? NN NR']; subst. rewrite <- app_assoc in H. destruct (safe_head _ _ (ts2 ++ mkT KName n :: ts') SP NN) as (t & ts3 & -> & MT & K & SH). cbn [app] in H. destruct (strict_hit starts _ _ _ _ H MT) as (c1 & E & A). rewrite (bind_ok _ _ _ _ _ E). apply at_here in A.
    assert (G : safe ts' ((headRecord compiles f t ;;; readHead compiles f) c1) /\ forall t0 c', (headRecord compiles f t ;;; readHead compiles f) c1 = ROk t0 c' -> t0 = mkT KName n).
    { split; [eapply s_bind; [apply SH, A|]; intros u c2 _ H2; apply (IH NR' n ts' f c2 H2)|]. intros t0 c' X. pose proof (SH f c1 A) as S. apply bind_inv in X. destruct X as (u & c2 & X & Y). rewrite X in S. exact (proj2 (IH NR' n ts' f c2 S) _ _ Y). }
    destruct (tKind t); try contradiction; exact G.
Qed.
Lemma safe_nodeRecord ts1 r ts' : spRecordQ ts1 r -> laterRecord r -> exists t ts2, ts1 = t :: ts2 /\ matches nodeStarts t = true /\ (tKind t = KName \/ tKind t = KOp) /\ (isNode r -> tKind t = KName) /\ forall f c, here (ts2 ++ ts') c -> safe ts' (nodeRecord f t c).
Proof.
  intros SP LR. destruct SP as [d ts args F|n ts ps NE F|n ts ps N0 NE F|n ts l SC|n ts l SC]; try (destruct LR; contradiction); eexists _, _; (split; [reflexivity|]).
  - split; [reflexivity|]. split; [right; reflexivity|]. split; [intros []|]. intros f c H. cbn [app] in H. rewrite <- app_assoc in H. exact (safe_layer _ _ _ f _ _ SC H).
  - split; [apply matches_cons; left; left; reflexivity|]. split; [left; reflexivity|]. split; [reflexivity|]. intros f c H. cbn [app] in H. rewrite <- app_assoc in H. exact (safe_node _ _ n f _ _ SC H).
Qed.
Lemma safe_nodes ts1 rs : spRecordsQ ts1 rs -> Forall laterRecord rs -> forall f c, here ts1 c -> safe [] ((let* t := fetchStrict nodeStarts in readNodes f t) c).
Proof.
  induction 1 as [|ts r ts2 rs SP SR IH]; intros LS f c H.
  - destruct (at_nil_eof _ _ H) as (t & c' & F & E & A'). rewrite (bind_ok _ _ _ _ _ F). destruct f; [exact I|]. rewrite (readNodes_end _ _ _ E). exact (at_here _ _ _ A').
  - inversion LS as [|? ? LR LS']; subst. destruct (safe_nodeRecord _ _ ts2 SP LR) as (t & ts3 & -> & MT & K & _ & SN). eapply s_strict; [exact H|exact MT|]. intros c1 H1. destruct f as [|f]; [exact I|]. rewrite (readNodes_eq f t c1 K). eapply s_bind; [apply SN, H1|]. intros u c2 _ H2. apply (IH LS' f c2 H2).
Qed.
Lemma safe_description ts rs f c : spDesc ts rs -> here ts c -> safe [] (readDescription compiles f c).
Proof.
  intros (SR & head & root & rest & -> & NR & N & LS) H. destruct (spRecords_app _ _ _ SR) as (ts1 & ts2 & -> & S1 & S2). inversion S2 as [|tsa ? tsb ? SP SQ]; subst. destruct (safe_nodeRecord _ _ tsb SP (or_introl N)) as (t & ts3 & -> & _ & K & KN & SN). specialize (KN N). destruct t as [k n]. cbn [tKind] in KN. subst k. cbn [app] in H.
  destruct (safe_readHead _ _ S1 NR n (ts3 ++ tsb) f c H) as (SH & EQ). unfold readDescription. eapply s_bind; [exact SH|]. intros t c1 X H1. rewrite (EQ _ _ X). eapply s_bind; [apply s_pure; [apply p_finish|apply c_finish|exact H1]|]. intros u c2 _ H2. destruct f as [|f]; [exact I|]. rewrite (readNodes_eq f _ c2 K). eapply s_bind; [apply SN, H2|]. intros v c3 _ H3. exact (safe_nodes _ _ SQ LS f c3 H3).
Qed.
End R.
