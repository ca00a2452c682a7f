(** Reading of descriptions (LangText.v): errors in texts that are written right are those of their records. *)
From Coq Require Import ZArith List Bool Lia.
From Verif Require Import Base BaseProofs Grammar LangBuild LangTypes LangString LangText LangTextSpec LangTextFuel LangTextTotal LangDescSpec LangDescParse LangErrorLocal LangErrorSteps LangErrorViable LangErrorForward.
Import ListNotations.
Open Scope Z_scope.

(** errors of records: [iRegexp] tells a wrong regular expression by [RE_eof] *)
Definition same (R : tok -> Prop) (e e' : readError) : Prop := e = e' \/ e' = RE_eof /\ exists t, R t /\ e = RE_regexp t.
Definition follows {A} (R : tok -> Prop) (ts' : list tok) (r i : res A) : Prop :=
  match r with
  | ROk x c' => i = ROk x (core c') /\ here ts' c'
  | RFail e _ => exists e' k, i = RFail e' k /\ same R e e'
  | _ => True
  end.
Definition never (t : tok) : Prop := False.
Lemma w_weaken {A} (R R' : tok -> Prop) ts' (r i : res A) : (forall t, R t -> R' t) -> follows R ts' r i -> follows R' ts' r i.
Proof. intros W. destruct r as [x c'|e c'| |]; cbn; auto. intros (e' & k & E & [->|(-> & t & T & ->)]); exists e' || exists RE_eof; exists k; (split; [exact E|]); [left; reflexivity|right; eauto]. Qed.
Lemma w_bind {A B} R ts1 ts' (m m' : M A) (f g : A -> M B) c k : follows R ts1 (m c) (m' k) -> (forall x c1, here ts1 c1 -> follows R ts' (f x c1) (g x (core c1))) -> follows R ts' (bind m f c) (bind m' g k).
Proof.
  intros S F. unfold bind. destruct (m c) as [x c1|e c1| |]; try exact I.
  - destruct S as (-> & H). exact (F x c1 H).
  - destruct S as (e' & k' & -> & S). cbn. eauto.
Qed.
Lemma w_pure {A} R ts (m : M A) c : pure m -> here ts c -> follows R ts (m c) (m (core c)).
Proof.
  intros P H. destruct (m c) as [x c1|e c1| |] eqn:E; cbn; try exact I; [exact (pure_inv _ _ _ _ _ _ P H E)|]. rewrite (ctx_eta c), P in E. destruct (m (core c)) as [x k|e' k| |]; try discriminate. injection E as -> _. exists e, k. split; [reflexivity|left; reflexivity].
Qed.
Lemma at_heres ts c0 c : at_ ts c0 c -> here ts c /\ core c = c0.
Proof. intros A. split; [exact (at_here _ _ _ A)|exact (at_core _ _ _ A)]. Qed.
Lemma w_strict {B} R types t ts ts' (f : tok -> M B) c (i : res B) : here (t :: ts) c -> matches types t = true -> (forall c1, here ts c1 -> core c1 = core c -> follows R ts' (f t c1) i) -> follows R ts' (bind (fetchStrict types) f c) i.
Proof. intros H MT F. destruct (strict_hit _ _ _ _ _ H MT) as (c1 & E & A). rewrite (bind_ok _ _ _ _ _ E). destruct (at_heres _ _ _ A). apply F; assumption. Qed.
Lemma w_skip {B} R b ts ts' (f : unit -> M B) c i : here (op b :: ts) c -> (forall c1, here ts c1 -> core c1 = core c -> follows R ts' (f tt c1) i) -> follows R ts' (bind (skipOne [b]) f c) i.
Proof.
  intros H F. destruct (skip_hit [b] _ _ _ _ H) as (c1 & E & A); [apply matches_one; right; reflexivity|]. rewrite (bind_ok _ _ _ _ _ E). destruct (at_heres _ _ _ A). apply F; assumption.
Qed.
Lemma w_miss {B} R types t ts ts' (f : option tok -> M B) c i : here (t :: ts) c -> matches types t = false -> (forall c1, here (t :: ts) c1 -> core c1 = core c -> follows R ts' (f None c1) i) -> follows R ts' (bind (fetch types false) f c) i.
Proof. intros H MT F. destruct (fetch_miss _ _ _ _ _ H MT) as (c1 & E & A). rewrite (bind_ok _ _ _ _ _ E). destruct (at_heres _ _ _ A). apply F; assumption. Qed.
Lemma w_hit {B} R types t ts ts' (f : option tok -> M B) c i : here (t :: ts) c -> matches types t = true -> (forall c1, here ts c1 -> core c1 = core c -> follows R ts' (f (Some t) c1) i) -> follows R ts' (bind (fetch types false) f c) i.
Proof. intros H MT F. destruct (fetch_hit _ false _ _ _ _ H MT) as (c1 & E & A). rewrite (bind_ok _ _ _ _ _ E). destruct (at_heres _ _ _ A). apply F; assumption. Qed.
Lemma w_ret {A} R (x : A) ts c k : here ts c -> core c = k -> follows R ts (ret x c) (ret x k). Proof. intros H <-. split; [reflexivity|exact H]. Qed.
Lemma w_assoc {A B C} R ts' (r : res C) (m : M A) (f : A -> M B) (g : B -> M C) k : follows R ts' r (bind m (fun x => bind (f x) g) k) -> follows R ts' r (bind (bind m f) g k).
Proof. rewrite bind_assoc. auto. Qed.
(** ** Nodes *)
Lemma w_seq R :
  (forall ts1 x, spSeqQ ts1 x -> forall f ts' c, here (ts1 ++ ts') c -> noHead [commaTok; pipeTok] ts' -> follows R ts' (parseGroup f c) (iSeq x (core c))) /\
  (forall ts1 x, spItemQ ts1 x -> forall f ts' c, here (ts1 ++ ts') c -> noHead [pipeTok] ts' -> follows R ts' (parseMore f c) (mapM iVar x (core c)) /\ follows R ts' (parseVariants f c) (iItem x (core c))) /\
  (forall ts1 x, spVarQ ts1 x -> forall f ts' c, here (ts1 ++ ts') c -> follows R ts' (parseVariant f c) (iVar x (core c))).
Proof.
  assert (NC : forall t, matches [commaTok; pipeTok] t = false -> matches [commaTok] t = false /\ matches [pipeTok] t = false).
  { intros t. unfold matches. cbn [existsb]. rewrite !orb_false_iff. tauto. }
  apply sp_ind.
  - intros ts i SP IH f ts' c H (t & ts2 & -> & MT). apply NC in MT. destruct MT as (M1 & M2). destruct f as [|f]; [exact I|]. cbn [parseGroup]. unfold iSeq. cbn [mapM]. eapply w_bind; [apply (IH f _ _ H); exists t, ts2; auto|]. intros x c1 H1. eapply w_miss; [exact H1|exact M1|]. intros c2 H2 E2. cbn. rewrite E2. auto.
  - intros ts i ts2 l SP IH SQ IH2 f ts' c H NH. rewrite <- app_assoc in H. cbn [app] in H. destruct f as [|f]; [exact I|]. cbn [parseGroup]. unfold iSeq. cbn [mapM]. eapply w_bind; [apply (IH f _ _ H); exists (op 44), (ts2 ++ ts'); split; reflexivity|]. intros x c1 H1. eapply w_hit; [exact H1|reflexivity|]. intros c2 H2 <-.
    eapply w_bind; [apply (IH2 f _ _ H2 NH)|]. intros y c3 H3. apply w_ret; auto.
  - intros ts v SP IH f ts' c H (t & ts2 & -> & MT). destruct f as [|f]; [split; exact I|]. split; cbn [parseMore parseVariants]; unfold iItem; cbn [mapM]; [|apply w_assoc]; (eapply w_bind; [apply (IH f _ _ H)|]); intros x c1 H1; (eapply w_miss; [exact H1|exact MT|]); intros c2 H2 E2; cbn; rewrite E2; auto.
  - intros ts v ts2 l SP IH SQ IH2 f ts' c H NH. rewrite <- app_assoc in H. cbn [app] in H. destruct f as [|f]; [split; exact I|]. split; cbn [parseMore parseVariants]; unfold iItem; cbn [mapM].
    + eapply w_bind; [apply (IH f _ _ H)|]. intros x c1 H1. eapply w_hit; [exact H1|reflexivity|]. intros c2 H2 <-. eapply w_bind; [apply (IH2 f _ _ H2 NH)|]. intros y c3 H3. apply w_ret; auto.
    + apply w_assoc. eapply w_bind; [apply (IH f _ _ H)|]. intros x c1 H1. eapply w_hit; [exact H1|reflexivity|]. intros c2 H2 <-. apply w_assoc.
      destruct (IH2 f _ _ H2 NH) as (F & _). destruct (seq_sound f) as (_ & _ & GM & _). unfold bind at 1 2. destruct (parseMore f c2) as [y c3|e c3| |] eqn:E; try exact I.
      * destruct F as (-> & H3). destruct (GM _ _ _ _ _ H2 E) as (_ & _ & _ & _ & _ & _ & NE & _). destruct y; [contradiction|]. split; [reflexivity|exact H3].
      * destruct F as (e' & k & -> & S). cbn. eauto.
  - intros n f ts' c H. destruct f as [|f]; [exact I|]. cbn [parseVariant]. eapply w_strict; [exact H|apply matches_cons; left; left; reflexivity|]. intros c1 H1 <-. cbn [tKind tText iVar]. apply (w_pure R ts' (let* i := addNode n false in ret (CNode i))); [pures|exact H1].
  - intros n NE f ts' c H. destruct f as [|f]; [exact I|]. cbn [parseVariant]. eapply w_strict; [exact H|reflexivity|]. intros c1 H1 <-. cbn [tKind tText iVar]. rewrite (bind_ok _ _ _ _ _ (textFrom_1 36 n c1)). destruct n as [|x n]; [contradiction|]. apply (w_pure R ts' (typeRef (x :: n))); [apply p_typeRef|exact H1].
  - intros f ts' c H. destruct f as [|f]; [exact I|]. cbn [parseVariant]. eapply w_strict; [exact H|reflexivity|]. intros c1 H1 <-. cbn [tKind tText iVar]. rewrite (bind_ok _ _ _ _ _ (textFrom_1 36 [] c1)). apply w_ret; auto.
  - intros t s (q & Q & ->) f ts' c H. destruct f as [|f]; [exact I|]. cbn [parseVariant]. eapply w_strict; [exact H|destruct Q as [-> | ->]; reflexivity|]. intros c1 H1 <-. cbn [tKind tText iVar]. rewrite (bind_ok _ _ _ _ _ (unquoted_q q s q c1)). apply (w_pure R ts' (literalRef s)); [apply p_literalRef|exact H1].
  - intros b ts l SQ IH f ts' c H. cbn [app] in H. rewrite <- app_assoc in H. cbn [app] in H. destruct f as [|f]; [exact I|]. cbn [parseVariant]. eapply w_strict; [exact H|destruct b; reflexivity|]. intros c1 H1 <-. cbn [iVar]. change (mapM (fun vs : list variant => let* xs := mapM iVar vs in ret (oneOf xs)) l) with (iSeq l).
    assert (NH : noHead [commaTok; pipeTok] (closingOf b :: ts')) by (exists (closingOf b), ts'; split; [reflexivity|destruct b; reflexivity]).
    destruct b; cbn [opening op tKind tText]; (eapply w_bind; [apply (IH f _ _ H1 NH)|]); intros x c2 H2; (eapply w_skip; [exact H2|]); intros c3 H3 <-; (split; [reflexivity|exact H3]).
Qed.
Lemma w_node R ts1 l n f ts' c : spSeqQ ts1 l -> here (op 61 :: ts1 ++ op 59 :: ts') c -> follows R ts' (readNode f n c) (iRecord (fun _ => true) (RNode n l) (core c)).
Proof.
  intros SP H. unfold readNode, parseNodeDef. cbn [iRecord]. eapply w_bind; [apply w_pure; [apply p_nodeFree|exact H]|]. intros u c1 H1. eapply w_bind; [apply w_pure; [apply p_addNode|exact H1]|]. intros i c2 H2. eapply w_skip; [exact H2|]. intros c3 H3 <-.
  eapply w_bind; [apply (proj1 (w_seq R) _ _ SP f _ _ H3); exists (op 59), ts'; split; reflexivity|]. intros cs c4 H4. eapply w_skip; [exact H4|]. intros c5 H5 <-. apply (w_pure R ts' (modify (fun c => setNodes (cNames c) (upd (cDefs c) (Z.to_nat i) (Some (CGroup false false cs))) c))); [pures|exact H5].
Qed.
(** ** Layers *)
Lemma w_args R ts1 l : spArgsQ ts1 l -> forall f ts' c, here (ts1 ++ op 41 :: ts') c -> follows R ts' (parseArgs f c) (ret l (core c)).
Proof.
  induction 1 as [t a SA|t a ts l SA SP IH]; intros f ts' c H; cbn [app] in H; (destruct f as [|f]; [exact I|]); cbn [parseArgs]; (eapply w_strict; [exact H|apply (larg_match t a c SA)|]); intros c1 H1 <-; fold (argText t); rewrite (bind_ok _ _ _ _ _ (proj2 (larg_match t a c1 SA))); (eapply w_strict; [exact H1|reflexivity|]); intros c2 H2 <-; [apply w_ret; auto|].
  change (nameEqb (tText (op 44)) rBraceTok) with false. cbn iota. change (ret (a :: l) (core c2)) with (bind (ret l) (fun l => ret (a :: l)) (core c2)). eapply w_bind; [apply (IH f _ _ H2)|]. intros y c3 H3. apply w_ret; auto.
Qed.
Lemma w_commands R ts1 l : spCommandsQ ts1 l -> forall f ts' c, here (ts1 ++ op 59 :: ts') c -> follows R ts' (parseCommands f c) (ret l (core c)).
Proof.
  induction 1 as [|ts x ts2 l SC SP IH]; intros f ts' c H; (destruct f as [|f]; [exact I|]); cbn [parseCommands].
  - eapply w_strict; [exact H|reflexivity|]. intros c1 H1 <-. apply w_ret; auto.
  - rewrite <- app_assoc in H.
    assert (K : forall n args c3, here (ts2 ++ op 59 :: ts') c3 -> follows R ts' ((let* l := parseCommands f in ret (mkCmd n args :: l)) c3) (ret (mkCmd n args :: l) (core c3))).
    { intros n args c3 H3. change (ret (mkCmd n args :: l) (core c3)) with (bind (ret l) (fun l => ret (mkCmd n args :: l)) (core c3)). eapply w_bind; [apply (IH f _ _ H3)|]. intros y c4 H4. apply w_ret; auto. }
    destruct SC as [n|n ts l' SA]; cbn [app] in H; (eapply w_strict; [exact H|apply matches_cons; left; left; reflexivity|]); intros c1 H1 <-; change (nameEqb (typeName (tKind (mkT KName n))) opTok) with false; cbn iota; (eapply w_skip; [exact H1|]); intros c2 H2 <-; unfold bind at 1; unfold ignoreError.
    + destruct (fetch_hit [rBraceTok] false _ _ _ _ H2 eq_refl) as (c3 & E & A). rewrite E. unfold bind at 1. cbn [ret]. destruct (at_heres _ _ _ A) as (H3 & <-). apply (K n []). exact H3.
    + rewrite <- app_assoc in H2. cbn [app] in H2. destruct (args_head _ _ _ _ SA H2) as (t & ts3 & E & MT). rewrite E in H2. destruct (fetch_miss [rBraceTok] _ _ _ _ H2 MT) as (c3 & F & A). rewrite F. rewrite <- E in A. destruct (at_heres _ _ _ A) as (H3 & <-).
      change (ret (mkCmd n l' :: l) (core c3)) with (bind (ret l') (fun a => ret (mkCmd n a :: l)) (core c3)). eapply w_bind; [apply (w_args R _ _ SA f _ _ H3)|]. intros args c4 H4. apply K. exact H4.
Qed.
Lemma w_layer R compiles ts1 l n f ts' c : spCommandsQ ts1 l -> here (mkT KName n :: ts1 ++ op 59 :: ts') c -> follows R ts' (parseLayerDef f (op 64) c) (iRecord compiles (RLayer (mkLayer n l)) (core c)).
Proof.
  intros SP H. unfold parseLayerDef. change (negb (nameEqb (tText (op 64)) atTok)) with false. cbn iota. eapply w_strict; [exact H|apply matches_one; left; reflexivity|]. intros c1 H1 <-. change (iRecord compiles (RLayer (mkLayer n l)) (core c1)) with (bind (ret l) (fun l => modify (fun c => setLayers (cLayers c ++ [mkLayer n l]) c)) (core c1)). eapply w_bind; [apply (w_commands R _ _ SP f _ _ H1)|]. intros y c2 H2.
  apply (w_pure R ts' (modify (fun c => setLayers (cLayers c ++ [mkLayer n y]) c))); [pures|exact H2].
Qed.
(** ** Directives and types *)
Lemma w_all R types l t ts' : Forall (fun t => matches types t = true) l -> matches types t = false -> forall f c, here (l ++ t :: ts') c -> follows R (t :: ts') (fetchAll f types c) (ret l (core c)).
Proof.
  intros F N. induction F as [|u l M F IH]; intros f c H; cbn [app] in H; (destruct f as [|f]; [exact I|]); cbn [fetchAll].
  - eapply w_miss; [exact H|exact N|]. intros c1 H1 <-. apply w_ret; auto.
  - eapply w_hit; [exact H|exact M|]. intros c1 H1 <-. change (ret (u :: l) (core c1)) with (bind (ret l) (fun l => ret (u :: l)) (core c1)). eapply w_bind; [apply (IH f _ H1)|]. intros y c2 H2. apply w_ret; auto.
Qed.
Lemma ret_inj {A} (x y : A) k k' : ret x k = ROk y k' -> x = y /\ k = k'. Proof. intros E. injection E as E1 E2. auto. Qed.
Lemma w_val {A B} R ts1 ts' (m : M A) (f : A -> M B) x c i : follows R ts1 (m c) (ret x (core c)) -> (forall c1, here ts1 c1 -> core c1 = core c -> follows R ts' (f x c1) i) -> follows R ts' (bind m f c) i.
Proof.
  intros S F. unfold bind. destruct (m c) as [y c1|e c1| |]; try exact I.
  - destruct S as (E & H). destruct (ret_inj _ _ _ _ E) as (<- & E2). apply F; auto.
  - destruct S as (e' & k' & E & _). discriminate.
Qed.
Lemma w_dir R d l args f ts' c : Forall2 (spArg quotedOf d) l args -> here (l ++ op 59 :: ts') c -> follows R ts' (parseDir f (mkT KDir (dirName d)) c) (iDirective d args (core c)).
Proof.
  intros F2 H. assert (FA : Forall (fun t => matches (argTypes d) t = true) l) by (clear H; induction F2; [apply Forall_nil|apply Forall_cons; [eapply arg_match; eassumption|assumption]]).
  rewrite parseDir_is. eapply w_val; [exact (w_all R _ _ _ ts' FA (matches_semi d) f c H)|]. intros c1 H1 <-. eapply w_skip; [exact H1|]. intros c2 H2 <-. rewrite (dirActs_is d l args F2). apply w_pure; [apply p_directive|exact H2].
Qed.
Section R.
Variable compiles : name -> bool.
Lemma w_regexp l ps f ts' c : ps <> [] -> Forall2 spPart l ps -> here (op 61 :: l ++ op 59 :: ts') c -> follows (fun t => hd_error l = Some t) ts' (regexpDef compiles f c) (iRegexp compiles ps (core c)).
Proof.
  intros NE F2 H. unfold regexpDef. eapply w_skip; [exact H|]. intros c1 H1 <-. assert (FA : Forall (fun t => matches [regexpTok; nameTok] t = true) l) by (clear - F2; induction F2; [apply Forall_nil|apply Forall_cons; [eapply part_match; eassumption|assumption]]).
  assert (G : follows (fun t => hd_error l = Some t) (op 59 :: ts') (fetchRegexp compiles f c1) (iRegexp compiles ps (core c1))).
  { unfold fetchRegexp. eapply w_val; [exact (w_all _ [regexpTok; nameTok] _ (op 59) ts' FA eq_refl f c1 H1)|]. intros c2 H2 <-. destruct l as [|t l]; [inversion F2; subst; contradiction|]. unfold iRegexp. eapply w_bind; [rewrite (join_is _ _ F2); apply w_pure; [apply p_iJoin|exact H2]|]. intros re c3 H3. destruct (compiles re); [apply w_ret; auto|]. cbn. exists RE_eof, (core c3). split; [reflexivity|]. right. eauto. }
  destruct (fetchRegexp compiles f c1) as [re c2|e c2| |] eqn:E; unfold bind at 1; rewrite E; cbn in G |- *; auto. destruct G as (-> & H2). change (follows (fun t => hd_error l = Some t) ts' ((skipOne semicolonTok ;;; ret re) c2) (ret re (core c2))). eapply w_skip; [exact H2|]. intros c3 H3 <-. apply w_ret; auto.
Qed.
(** the first token of the regular expression of a definition *)
Definition firstPart (r : record) (t : tok) : Prop := exists p, (exists n ps, r = RTemplate n (p :: ps) \/ r = RType n (p :: ps)) /\ spPart t p.
Lemma w_head ts1 r ts' : spRecordQ ts1 r -> ~ isNode r -> exists t ts2, ts1 = t :: ts2 /\ matches starts t = true /\ tKind t <> KName /\ forall f c, here (ts2 ++ ts') c -> follows (firstPart r) ts' (headRecord compiles f t c) (iRecord compiles r (core c)).
Proof.
  intros SP NN. destruct SP as [d ts args F|n ts ps NE F|n ts ps N0 NE F|n ts l SC|n ts l SC]; [| | | |exfalso; apply NN; exact I]; eexists _, _; (split; [reflexivity|]).
  - split; [apply matches_cons; right; apply matches_cons; left; left; reflexivity|]. split; [discriminate|]. intros f c H. rewrite <- app_assoc in H. exact (w_dir _ _ _ _ _ _ _ F H).
  - split; [reflexivity|]. split; [discriminate|]. intros f c H. cbn [app] in H. rewrite <- app_assoc in H. unfold headRecord. cbn [tKind tText iRecord]. rewrite (bind_ok _ _ _ _ _ (textFrom_2 _ _ _ c)). eapply w_bind; [apply (w_pure _ _ (get cTemplates)); [pures|exact H]|]. intros tp c1 H1. destruct (nget n tp); [cbn; eexists _, _; split; [reflexivity|left; reflexivity]|]. rewrite template_is.
    eapply w_bind; [eapply w_weaken; [|exact (w_regexp _ _ f _ _ NE F H1)]|].
    + intros t E. destruct F as [|t' p ts ps P F]; [discriminate|]. injection E as <-. exists p. split; [exists n, ps; left; reflexivity|exact P].
    + intros re c2 H2. apply (w_pure _ ts' (modify (fun c => setTemplates (nput n re (cTemplates c)) c))); [pures|exact H2].
  - split; [reflexivity|]. split; [discriminate|]. intros f c H. cbn [app] in H. rewrite <- app_assoc in H. unfold headRecord. cbn [tKind tText iRecord]. rewrite (bind_ok _ _ _ _ _ (textFrom_1 _ _ c)). eapply w_bind; [apply w_pure; [apply p_typeDefined|exact H]|]. intros has c1 H1. destruct (has || nameEqb n []); [cbn; eexists _, _; split; [reflexivity|left; reflexivity]|].
    rewrite tokenDef_is. eapply w_bind; [eapply w_weaken; [|exact (w_regexp _ _ f _ _ NE F H1)]|].
    + intros t E. destruct F as [|t' p ts ps P F]; [discriminate|]. injection E as <-. exists p. split; [exists n, ps; right; reflexivity|exact P].
    + intros re c2 H2. apply w_pure; [pures|exact H2].
  - split; [reflexivity|]. split; [discriminate|]. intros f c H. cbn [app] in H. rewrite <- app_assoc in H. unfold headRecord. cbn [tKind op]. exact (w_layer _ _ _ _ _ f _ _ SC H).
Qed.
(** records are read up to [r] that is in error *)
Definition failsAt (rs : list record) (k : ctx) (e : readError) : Prop := exists a r b k1 e' k2, rs = a ++ r :: b /\ iRecords compiles a k = ROk tt k1 /\ iRecord compiles r k1 = RFail e' k2 /\ same (firstPart r) e e'.
Lemma failsAt_cons r rs k k1 e : iRecord compiles r k = ROk tt k1 -> failsAt rs k1 e -> failsAt (r :: rs) k e.
Proof. intros H (a & x & b & k2 & e' & k3 & -> & IA & IX & S). exists (r :: a), x, b, k2, e', k3. split; [reflexivity|]. split; [|auto]. rewrite (iRecords_cons _ _ _ _ _ _ H). exact IA. Qed.
Lemma failsAt_here r rs k e e' k' : iRecord compiles r k = RFail e' k' -> same (firstPart r) e e' -> failsAt (r :: rs) k e.
Proof. intros H S. exists [], r, rs, k, e', k'. repeat split; assumption. Qed.
Lemma w_readHead ts1 rs : spRecordsQ ts1 rs -> Forall (fun r => ~ isNode r) rs -> forall n ts' f c, here (ts1 ++ mkT KName n :: ts') c ->
  match readHead compiles f c with
  | ROk t c' => t = mkT KName n /\ iRecords compiles rs (core c) = ROk tt (core c') /\ here ts' c'
  | RFail e _ => failsAt rs (core c) e
  | _ => True
  end.
Proof.
  induction 1 as [|ts r ts2 rs SP SR IH]; intros NR n ts' f c H; (destruct f as [|f]; [exact I|]); rewrite readHead_is.
  - cbn [app] in H. destruct (strict_hit starts _ _ _ _ H) as (c1 & E & A); [apply matches_cons; left; left; reflexivity|]. rewrite (bind_ok _ _ _ _ _ E). cbn [tKind]. destruct (at_heres _ _ _ A) as (H1 & <-). cbn. auto.
  - inversion NR as [|? ? NN NR']; subst. rewrite <- app_assoc in H. destruct (w_head _ _ (ts2 ++ mkT KName n :: ts') SP NN) as (t & ts3 & -> & MT & K & SH). cbn [app] in H. destruct (strict_hit starts _ _ _ _ H MT) as (c1 & E & A). rewrite (bind_ok _ _ _ _ _ E). destruct (at_heres _ _ _ A) as (H1 & <-).
    enough (G : match (headRecord compiles f t ;;; readHead compiles f) c1 with
      | ROk t c' => t = mkT KName n /\ iRecords compiles (r :: rs) (core c1) = ROk tt (core c') /\ here ts' c'
      | RFail e _ => failsAt (r :: rs) (core c1) e
      | _ => True
      end) by (destruct (tKind t); try contradiction; exact G).
    specialize (SH f c1 H1). unfold bind. destruct (headRecord compiles f t c1) as [u c2|e c2| |]; try exact I.
    + destruct u, SH as (IR & H2). specialize (IH NR' n ts' f c2 H2). destruct (readHead compiles f c2) as [t' c3|e c3| |]; try exact I.
      * rewrite (iRecords_cons _ _ _ _ _ _ IR). exact IH.
      * exact (failsAt_cons _ _ _ _ _ IR IH).
    + destruct SH as (e' & k & IR & S). exact (failsAt_here _ _ _ _ _ _ IR S).
Qed.
Lemma w_nodeRecord ts1 r ts' : spRecordQ ts1 r -> laterRecord r -> exists t ts2, ts1 = t :: ts2 /\ matches nodeStarts t = true /\ (tKind t = KName \/ tKind t = KOp) /\ (isNode r -> tKind t = KName) /\ forall f c, here (ts2 ++ ts') c -> follows (firstPart r) ts' (nodeRecord f t c) (iRecord compiles r (core c)).
Proof.
  intros SP LR. destruct SP as [d ts args F|n ts ps NE F|n ts ps N0 NE F|n ts l SC|n ts l SC]; try (destruct LR; contradiction); eexists _, _; (split; [reflexivity|]).
  - split; [reflexivity|]. split; [right; reflexivity|]. split; [intros []|]. intros f c H. cbn [app] in H. rewrite <- app_assoc in H. exact (w_layer _ _ _ _ _ f _ _ SC H).
  - split; [apply matches_cons; left; left; reflexivity|]. split; [left; reflexivity|]. split; [reflexivity|]. intros f c H. cbn [app] in H. rewrite <- app_assoc in H. exact (w_node _ _ _ n f _ _ SC H).
Qed.
Lemma w_nodes ts1 rs : spRecordsQ ts1 rs -> Forall laterRecord rs -> forall f c, here ts1 c ->
  match (let* t := fetchStrict nodeStarts in readNodes f t) c with
  | RFail e _ => failsAt rs (core c) e
  | _ => True
  end.
Proof.
  induction 1 as [|ts r ts2 rs SP SR IH]; intros LS f c H.
  - destruct (at_nil_eof _ _ H) as (t & c' & F & E & A'). rewrite (bind_ok _ _ _ _ _ F). destruct f; [exact I|]. rewrite (readNodes_end _ _ _ E). exact I.
  - inversion LS as [|? ? LR LS']; subst. destruct (w_nodeRecord _ _ ts2 SP LR) as (t & ts3 & -> & MT & K & _ & SN). cbn [app] in H. destruct (strict_hit _ _ _ _ _ H MT) as (c1 & E & A). rewrite (bind_ok _ _ _ _ _ E). destruct (at_heres _ _ _ A) as (H1 & <-).
    destruct f as [|f]; [exact I|]. rewrite (readNodes_eq f t c1 K). specialize (SN f c1 H1). unfold bind at 1. destruct (nodeRecord f t c1) as [u c2|e c2| |]; try exact I.
    + destruct u, SN as (IR & H2). specialize (IH LS' f c2 H2). match type of IH with match ?x with _ => _ end => match goal with |- match ?y with _ => _ end => change y with x end; destruct x as [u c3|e c3| |]; try exact I end. exact (failsAt_cons _ _ _ _ _ IR IH).
    + destruct SN as (e' & k & IR & S). exact (failsAt_here _ _ _ _ _ _ IR S).
Qed.
(** an error in a text of a description is either an error of a record or an error that is found when all types are known *)
Definition descriptionFails (head nodes : list record) (k : ctx) (e : readError) : Prop :=
  failsAt head k e \/
  exists k1, iRecords compiles head k = ROk tt k1 /\
    ((exists k2, finishTokens k1 = RFail e k2) \/ exists k2, finishTokens k1 = ROk tt k2 /\ failsAt nodes k2 e).
Lemma w_description ts head root rest f c e c' : spRecordsQ ts (head ++ root :: rest) -> Forall (fun r => ~ isNode r) head -> isNode root -> Forall laterRecord rest -> here ts c -> readDescription compiles f c = RFail e c' -> descriptionFails head (root :: rest) (core c) e.
Proof.
  intros SR NR N LS H X. destruct (spRecords_app _ _ _ SR) as (ts1 & ts2 & -> & S1 & S2). inversion S2 as [|tsa ? tsb ? SP SQ]; subst. destruct (w_nodeRecord _ _ tsb SP (or_introl N)) as (t & ts3 & -> & _ & K & KN & SN). specialize (KN N). destruct t as [k n]. cbn [tKind] in KN. subst k. cbn [app] in H.
  pose proof (w_readHead _ _ S1 NR n (ts3 ++ tsb) f c H) as SH. unfold readDescription in X. unfold bind at 1 in X. destruct (readHead compiles f c) as [t c1|e1 c1| |]; try discriminate; [|injection X as -> _; left; exact SH]. destruct SH as (-> & IH & H1).
  right. exists (core c1). split; [exact IH|]. pose proof (w_pure never _ _ _ p_finish H1) as F. unfold bind at 1 in X. destruct (finishTokens c1) as [u c2|e1 c2| |]; try discriminate.
  - destruct u, F as (F & H2). right. exists (core c2). split; [exact F|]. destruct f as [|f]; [discriminate|]. rewrite (readNodes_eq f _ c2 K) in X. specialize (SN f c2 H2). unfold bind at 1 in X. destruct (nodeRecord f (mkT KName n) c2) as [u c3|e1 c3| |]; try discriminate.
    + destruct u, SN as (IR & H3). pose proof (w_nodes _ _ SQ LS f c3 H3) as W. apply (failsAt_cons _ _ _ _ _ IR). match type of W with match ?x with _ => _ end => change x with ((let* t := fetchStrict nodeStarts in readNodes f t) c3) in W end. rewrite X in W. exact W.
    + injection X as -> _. destruct SN as (e' & k & IR & S). exact (failsAt_here _ _ _ _ _ _ IR S).
  - injection X as -> _. destruct F as (e' & k & F & [->|(_ & t & [] & _)]). left. eauto.
Qed.
End R.
