(** Faults of descriptions (LangFaultSpec.v): errors of records (LangDescParse.v) are the first faults. *)
From Coq Require Import ZArith List Bool Lia.
From Verif Require Import Base BaseProofs Grammar LangBuild LangTypes LangString LangText LangTextTotal LangTextSpec LangTextFuel LangDescSpec LangDescParse LangDescFacts LangDescHead LangDescNodes LangDescAll LangFaultSpec LangFaultRead.
Import ListNotations.
Open Scope Z_scope.

Section R.
Variable compiles : name -> bool.
Notation headFault := (headFault compiles).
(** ** Definitions of templates and types of tokens *)
Lemma hasType_defined a n : hasType a n <-> In n (defined a).
Proof.
  unfold hasType, defined. rewrite flat_In. split.
  - intros (ps & I). exists (RType n ps). split; [exact I|left; reflexivity].
  - intros (r & I & X). destruct r as [d args|m ps|m ps|l|m l]; try destruct X. subst m. eauto. contradiction.
Qed.
Lemma hasTemplate_app a b n : hasTemplate (a ++ b) n <-> hasTemplate a n \/ hasTemplate b n.
Proof. unfold hasTemplate. split; [intros (ps & I); apply in_app_iff in I; destruct I; eauto|intros [(ps & I)|(ps & I)]; exists ps; apply in_app_iff; auto]. Qed.
Lemma regs_known a : forall env e x, regs compiles env a = Some (e, x) -> templates env a = e /\ forall n, In n (map fst e) <-> In n (map fst env) \/ hasTemplate a n.
Proof.
  assert (O : forall r a n, (forall ps, r <> RTemplate n ps) -> (hasTemplate (r :: a) n <-> hasTemplate a n)).
  { intros r l n N. unfold hasTemplate. split; [intros (ps & [I|I]); [destruct (N ps I)|eauto]|intros (ps & I); exists ps; right; exact I]. }
  induction a as [|r a IH]; intros env e x H.
  - injection H as <- _. split; [reflexivity|]. intros n. unfold hasTemplate. split; [auto|]. intros [I|(ps & [])]. exact I.
  - cbn [regs] in H. destruct (regStep compiles env r) as [(env1, y)|] eqn:RS; [|discriminate]. cbn [obind fst snd] in H. destruct (regs compiles env1 a) as [(e1, x1)|] eqn:RA; [|discriminate]. cbn [obind fst snd] in H. injection H as <- _. destruct (IH _ _ _ RA) as (T & K).
    destruct r as [d args|m ps|m ps|l|m l]; cbn [regStep] in RS; cbn [templates].
    + injection RS as <- _. split; [exact T|]. intros n. rewrite K, O by discriminate. tauto.
    + destruct (joined env ps) as [re|]; [|discriminate]. cbn [obind] in RS. destruct (compiles re && negb (mem m (map fst env))); [|discriminate]. injection RS as <- _. split; [exact T|]. intros n. rewrite K. cbn [map fst In]. split.
      * intros [[<- |I]|(ps' & I)]; [right; exists ps; left; reflexivity|left; exact I|right; exists ps'; right; exact I].
      * intros [I|(ps' & [I|I])]; [left; right; exact I|injection I as -> _; left; left; reflexivity|right; exists ps'; exact I].
    + destruct (joined env ps) as [re|]; [|discriminate]. cbn [obind] in RS. destruct (compiles re); [|discriminate]. injection RS as <- _. split; [exact T|]. intros n. rewrite K, O by discriminate. tauto.
    + injection RS as <- _. split; [exact T|]. intros n. rewrite K, O by discriminate. tauto.
    + injection RS as <- _. split; [exact T|]. intros n. rewrite K, O by discriminate. tauto.
Qed.
Lemma nget_in {V} n (m : list (name * V)) : nget n m = None <-> ~ In n (map fst m).
Proof. pose proof (nget_mem n m) as E. destruct (nget n m); [split; [discriminate|]; intros X; exfalso; apply X, mem_In; symmetry; exact E|]. split; [intros _; apply mem_not; symmetry; exact E|reflexivity]. Qed.
Lemma joined_unknown env p n q : nget n env = None -> joined env (p ++ PTemplate n :: q) = None.
Proof. intros N. induction p as [|x p IH]; cbn [app joined]; [rewrite N; reflexivity|]. rewrite IH. destruct x as [re|m]; cbn [obind]; [reflexivity|]. destruct (nget m env); reflexivity. Qed.
Lemma iJoin_fails ps c e k : iJoin ps c = RFail e k -> exists p n q, ps = p ++ PTemplate n :: q /\ Forall (fun x => match x with PTemplate m => nget m (cTemplates c) <> None | _ => True end) p /\ nget n (cTemplates c) = None /\ e = RE_unknownTemplate n.
Proof.
  induction ps as [|x ps IH]; intros H; cbn [iJoin] in H; [discriminate|]. assert (G : forall s, (let* rest := iJoin ps in ret (s ++ rest)) c = RFail e k -> iJoin ps c = RFail e k) by (intros s; unfold bind; destruct (iJoin ps c); try discriminate; auto). destruct x as [re|m].
  - unfold bind at 1 in H. cbn [ret] in H. destruct (IH (G _ H)) as (p & n & q & -> & F & N & E). exists (PRegexp re :: p), n, q. split; [reflexivity|]. split; [constructor; auto|auto].
  - rewrite bind_assoc in H. unfold bind at 1, get at 1 in H. destruct (nget m (cTemplates c)) as [s|] eqn:NG.
    + unfold bind at 1 in H. cbn [ret] in H. destruct (IH (G _ H)) as (p & n & q & -> & F & N & E). exists (PTemplate m :: p), n, q. split; [reflexivity|]. split; [constructor; [congruence|exact F]|auto].
    + injection H as <- _. exists [], m, ps. split; [reflexivity|]. auto.
Qed.
(** records that are accepted are right *)
Lemma headOk_clean a : headOk compiles a -> none headFault a.
Proof.
  intros (RG & ND & KP) b r q e -> F. rewrite regs_app in RG. destruct (regs compiles [] b) as [(env, x)|] eqn:RB; [|apply RG; reflexivity]. cbn [obind fst snd regs] in RG. destruct (regs_known _ _ _ _ RB) as (T & K). cbn [map] in K.
  assert (RS : regStep compiles env r <> None) by (intros X; rewrite X in RG; apply RG; reflexivity). clear RG.
  assert (P : forall ps, partsOf r ps -> exists re, joined env ps = Some re /\ compiles re = true).
  { intros ps (n & [-> | ->]); cbn [regStep] in RS; (destruct (joined env ps) as [re|]; [|destruct (RS eq_refl)]); cbn [obind] in RS; destruct (compiles re) eqn:C; eauto; destruct (RS eq_refl). }
  inversion F as [n ps E HT|n ps E HT|p n q' E (HT & HG) _|ps p n q' N PO E _ HT|p ps t re N PO J C SP]; [subst r|subst r|subst r|subst ps|rewrite T in J].
  - cbn [regStep] in RS. destruct (joined env ps); [|destruct (RS eq_refl)]. cbn [obind] in RS. assert (M : mem n (map fst env) = true) by (apply mem_In, K; right; exact HT). rewrite M, andb_false_r in RS. destruct (RS eq_refl).
  - apply hasType_defined in HT. rewrite defined_app in ND. change (defined (RType n ps :: q)) with (n :: defined q) in ND. apply NoDup_remove_2 in ND. apply ND, in_or_app. left. exact HT.
  - apply hasType_defined in HT. destruct (KP b p n q' q eq_refl HT). tauto.
  - destruct (P _ PO) as (re & J & _). rewrite joined_unknown in J; [discriminate|]. apply nget_in. intros I. apply K in I. destruct I as [[]|I]. exact (HT I).
  - destruct (P _ PO) as (re' & J' & C'). rewrite J in J'. congruence.
Qed.
Lemma iRegexp_fails a r ps c e e' k : isNew a r -> partsOf r ps -> Inv compiles a c -> iRegexp compiles ps c = RFail e' k -> same (firstPart r) e e' -> e <> RE_eof -> headFault a r e.
Proof.
  intros N PO H F S NE. pose proof (t_regs _ _ _ _ _ _ _ (v_types _ _ _ H)) as RG. destruct (regs_known _ _ _ _ RG) as (T & K). cbn [map] in K. unfold iRegexp, bind in F. destruct (iJoin ps c) as [re c1|e1 c1| |] eqn:J; try discriminate.
  - pose proof (iJoin_is ps c) as X. destruct (joined (cTemplates c) ps) as [re'|] eqn:JE; [|destruct X; congruence]. rewrite J in X. injection X as -> ->. destruct (compiles re') eqn:C; [discriminate|]. injection F as <- _. destruct S as [-> |(_ & t & (p & (n & ps' & P) & SP) & ->)].
    + contradiction.
    + assert (ps = p :: ps') as ->. { destruct PO as (m & PO). destruct PO as [PO|PO], P as [P|P]; rewrite PO in P; congruence. } eapply HF_regexp; eauto. rewrite T. exact JE.
  - injection F as -> _. destruct (iJoin_fails _ _ _ _ J) as (p & n & q & -> & FA & NG & ->). destruct S as [-> |(X & _)]; [|discriminate]. eapply HF_unknown; eauto.
    + eapply Forall_impl; [|exact FA]. intros [re|m] X; [exact I|]. cbn. destruct (nget m (cTemplates c)) eqn:G; [|congruence]. assert (IM : In m (map fst (cTemplates c))) by (apply mem_In; rewrite <- nget_mem, G; reflexivity). apply K in IM. destruct IM as [[]|IM]. exact IM.
    + intros HT. apply nget_in in NG. apply NG, K. right. exact HT.
Qed.
Lemma record_fails a r c e e' k : fits (a ++ [r]) -> ~ isNode r -> Inv compiles a c -> iRecord compiles r c = RFail e' k -> same (firstPart r) e e' -> e <> RE_eof -> headFault a r e.
Proof.
  intros (F1 & F2 & F3) NN H F S NE. rewrite !Forall_app in *. destruct F1 as (F1 & F1'), F2 as (_ & F2), F3 as (_ & F3). apply Forall_inv in F1', F2, F3. pose proof (v_types _ _ _ H) as T. pose proof (t_regs _ _ _ _ _ _ _ T) as RG. destruct (regs_known _ _ _ _ RG) as (_ & K). cbn [map] in K.
  assert (SM : forall x, e' = x -> x <> RE_eof -> e = x) by (intros x -> NX; destruct S as [S|(S & _)]; [exact S|contradiction]).
  destruct r as [d args|n ps|n ps|l|n l]; cbn [iRecord] in F; [| | |discriminate|exfalso; apply NN; exact I].
  - destruct (directive_run compiles a d args c F1' H) as [(c' & E & _)|(p & n & q & c' & -> & (-> & R1 & R2) & KK & E)]; [congruence|]. rewrite E in F. injection F as F _. rewrite (SM _ (eq_sym F)) by discriminate.
    assert (MA : forall l m, In m (typesIn (dirEqb DGroup) (plus a DGroup l)) <-> In m (typesIn (dirEqb DGroup) a) \/ In (AType m) l).
    { intros l m. unfold plus. rewrite typesIn_app, typesIn_dir, in_app_iff. cbn [dirEqb]. rewrite flat_In. split; [intros [X|(x & IX & JX)]; [auto|]; destruct x as [y|y]; [|destruct JX]; destruct JX as [-> |[]]; auto|intros [X|X]; [auto|]]. right. exists (AType m). split; [exact X|left; reflexivity]. }
    eapply HF_group; [reflexivity|split; [apply hasType_defined, R1|apply MA, R2]|]. intros p' m q' -> (HT & HG). destruct (KK a p' m q' [] eq_refl (proj1 (hasType_defined _ _) HT)). tauto.
  - unfold bind at 1, get at 1 in F. destruct (nget n (cTemplates c)) as [s|] eqn:NG.
    + injection F as F _. rewrite (SM _ (eq_sym F)) by discriminate. eapply HF_template; [reflexivity|]. assert (IM : In n (map fst (cTemplates c))) by (apply mem_In; rewrite <- nget_mem, NG; reflexivity). apply K in IM. destruct IM as [[]|IM]. exact IM.
    + assert (N : isNew a (RTemplate n ps)) by (intros HT; apply nget_in in NG; apply NG, K; right; exact HT). unfold bind in F. destruct (iRegexp compiles ps c) as [re c1|e1 c1| |] eqn:J; try discriminate. injection F as -> _. eapply iRegexp_fails; eauto. exists n. left. reflexivity.
  - rewrite (bind_ok _ _ _ _ _ (typeDefined_is compiles a n c T)) in F. destruct (mem n (defined a)) eqn:M; cbn [orb] in F.
    + injection F as F _. rewrite (SM _ (eq_sym F)) by discriminate. eapply HF_type; [reflexivity|]. apply hasType_defined, mem_In, M.
    + cbn in F3. rewrite (proj2 (nameEqb_not n []) F3) in F. assert (N : isNew a (RType n ps)) by (cbn; rewrite hasType_defined; apply mem_not, M). unfold bind in F. destruct (iRegexp compiles ps c) as [re c1|e1 c1| |] eqn:J; try discriminate.
      * exfalso. pose proof (iRegexp_is compiles ps c) as X. destruct (joined (cTemplates c) ps) as [re'|] eqn:JE; [|destruct X; congruence]. destruct (compiles re') eqn:CE; [|destruct X; congruence]. rewrite J in X. injection X as -> ->. destruct F2 as (S1 & S2).
        destruct (addToken_run compiles a n re' ps c T) as (ts & ex & xi & ix & E & _); [apply mem_not, M|exact JE|exact CE|apply (joined_solid compiles (cTemplates c) ps); [exact S1|exact S2|apply T|exact JE]|]. congruence.
      * injection F as -> _. eapply iRegexp_fails; eauto. exists n. right. reflexivity.
Qed.
Lemma head_fails hd e : fits hd -> Forall (fun r => ~ isNode r) hd -> failsAt compiles hd start e -> e <> RE_eof -> first headFault hd e.
Proof.
  intros F N (a & r & b & k1 & e' & k2 & -> & IA & IR & S) NE. exists a, r, b. split; [reflexivity|]. assert (E : a ++ r :: b = (a ++ [r]) ++ b) by (rewrite <- app_assoc; reflexivity). rewrite E in F. apply fits_app in F. apply Forall_app in N. destruct N as (N1 & N2). apply Forall_inv in N2.
  destruct (fits_app _ _ F) as (A1 & A2 & A3). pose proof (head_run compiles a [] start (inv_start compiles) A1 N1 A2 A3) as H. rewrite IA in H. cbn [app] in H. split; [eapply record_fails; eauto|]. intros a' r' b' e1 EA. apply (headOk_clean a (headOk_inv _ _ _ H) _ _ _ e1 EA).
Qed.
(** ** Definitions of nodes *)
Section Nodes.
Variables (rs : list record) (res : list (name * name)).
Definition clean (v : variant) : Prop := forall e, ~ leafFault rs v e.
Definition firstLeaf (l : list variant) (e : readError) : Prop := exists p v q, l = p ++ v :: q /\ Forall clean p /\ leafFault rs v e.
Definition errs {X} (m : M X) (l : list variant) : Prop := forall N U df ls c e k, St rs res N U df ls c -> m c = RFail e k -> firstLeaf l e.
Lemma firstLeaf_l a b e : firstLeaf a e -> firstLeaf (a ++ b) e.
Proof. intros (p & v & q & -> & P & F). exists p, v, (q ++ b). rewrite <- app_assoc. auto. Qed.
Lemma firstLeaf_r a b e : Forall clean a -> firstLeaf b e -> firstLeaf (a ++ b) e.
Proof. intros C (p & v & q & -> & P & F). exists (a ++ p), v, q. rewrite <- app_assoc. split; [reflexivity|]. split; [apply Forall_app; auto|exact F]. Qed.
Lemma errs_map {X Y} (m : M X) (g : X -> Y) l : errs m l -> errs (let* x := m in ret (g x)) l.
Proof. intros E N U df ls c e k S H. unfold bind in H. destruct (m c) as [x c1|e1 c1| |] eqn:M; try discriminate. injection H as -> _. eapply E; eauto. Qed.
Lemma errs_each {A X} (f : A -> M X) (ok : A -> Prop) (ns us : A -> list name) val (lv : A -> list variant) l :
  Forall (fun a => runs rs res (f a) (ok a) (ns a) (us a) (val a) /\ errs (f a) (lv a) /\ (ok a -> Forall clean (lv a))) l -> errs (mapM f l) (flat lv l).
Proof.
  induction 1 as [|a l (R & E & O) F IH]; intros N U df ls c e k S H; cbn [mapM] in H; [discriminate|]. rewrite flat_cons. unfold bind in H. specialize (R N U df ls c S). specialize (E N U df ls c). destruct (f a c) as [x c1|e1 c1| |] eqn:M; try discriminate.
  - destruct R as (OK & S1 & _). apply firstLeaf_r; [exact (O OK)|]. destruct (mapM f l c1) as [y c2|e2 c2| |] eqn:M2; try discriminate. injection H as -> _. exact (IH _ _ _ _ _ _ _ S1 M2).
  - injection H as -> _. apply firstLeaf_l. exact (E _ _ S eq_refl).
Qed.
Lemma clean_all : forall v, okVar rs v -> Forall clean (leaves v).
Proof.
  apply (variant_nested (fun v => okVar rs v -> Forall clean (leaves v))).
  - intros n _. constructor; [|constructor]. intros e F. inversion F.
  - intros n (H & _). constructor; [|constructor]. destruct (H n (or_introl eq_refl)) as (H1 & H2 & H3). intros e F. inversion F as [? X|? X Y|]; subst; [exact (X H1)|]. unfold listed in *. apply mem_not in H2, H3. tauto.
  - intros _. constructor; [|constructor]. intros e F. inversion F.
  - intros s (_ & H). constructor; [|constructor]. intros e F. inversion F as [| |? X Y]; subst. apply Y, (H X s). left. reflexivity.
  - intros b l F (H1 & H2). cbn [leaves]. rewrite Forall_forall. intros v I0. apply flat_In in I0. destruct I0 as (i & I1 & I0). apply flat_In in I0. destruct I0 as (w & I2 & I0). rewrite Forall_forall in F. specialize (F i I1). rewrite Forall_forall in F. assert (O : okVar rs w).
    { split.
      - intros x I. apply H1. cbn [typesUsed]. apply flat_In. exists i. split; [exact I1|]. apply flat_In. exists w. auto.
      - intros R x I. apply (H2 R). cbn [literalsIn]. apply flat_In. exists i. split; [exact I1|]. apply flat_In. exists w. auto. }
    specialize (F w I2 O). rewrite Forall_forall in F. exact (F v I0).
Qed.
Lemma errs_var : forall v, errs (iVar v) (leaves v).
Proof.
  apply variant_nested.
  - intros n N U df ls c e k S H. exfalso. cbn [iVar] in H. destruct (addNode_run compiles rs res N U df ls c n false S) as (c' & E & _). rewrite (bind_ok _ _ _ _ _ E) in H. discriminate.
  - intros n N U df ls c e k S H. exists [], (VType n), []. split; [reflexivity|]. split; [constructor|]. cbn [iVar] in H. unfold typeRef in H. rewrite (bind_ok (get cTokenIndex) _ c (cTokenIndex c) c eq_refl) in H. rewrite (s_index _ _ _ _ _ _ _ S) in H. destruct (mem n (typeNames rs)) eqn:M.
    + rewrite (bind_ok (get cTokens) _ c (cTokens c) c eq_refl) in H. rewrite (s_tokens _ _ _ _ _ _ _ S) in H. apply mem_In in M. pose proof (s_res _ _ _ _ _ _ _ S) as ER.
      assert (G : exists re, zget (types rs res ++ map (literalTokenNow rs) (firsts (stringsIn any rs ++ U))) (position n (typeNames rs)) = Some (typeTokenNow rs (n, re))).
      { pose proof M as M0. rewrite <- (types_names rs res ER) in *. destruct (key_get gtName (types rs res) n M0) as (t & G & K & IT). pose proof (position_range n _ M0) as PR. unfold zlen in PR. rewrite map_length in PR. rewrite zget_app1 by apply PR. rewrite G. unfold types in IT. apply in_map_iff in IT. destruct IT as ((n', re) & <- & _). cbn in K. subst n'. exists re. reflexivity. }
      destruct G as (re & G). unfold orCrash in H. unfold bind at 1 in H. rewrite G in H. cbn [typeTokenNow gtFlags fst] in H. rewrite flags_unused in H. destruct (listed DSide n rs || listed DError n rs) eqn:FL; [|discriminate]. injection H as <- _. apply LF_side; [exact M|]. apply orb_true_iff in FL. unfold listed in FL. rewrite !mem_In in FL. exact FL.
    + injection H as <- _. apply LF_unknown. apply mem_not, M.
  - intros N U df ls c e k S H. discriminate.
  - intros s N U df ls c e k S H. exists [], (VLiteral s), []. split; [reflexivity|]. split; [constructor|]. cbn [iVar] in H. unfold literalRef in H. rewrite (bind_ok (get cLiteralIndex) _ c (cLiteralIndex c) c eq_refl) in H. rewrite (s_lindex _ _ _ _ _ _ _ S) in H. destruct (mem s (stringsIn any rs ++ U)) eqn:M; [discriminate|].
    rewrite (bind_ok (get cRestrictLiterals) _ c (cRestrictLiterals c) c eq_refl) in H. rewrite (s_restrict _ _ _ _ _ _ _ S) in H. pose proof (proj1 (mem_not _ _) M) as NI. rewrite in_app_iff in NI. destruct (stringsIn (dirEqb DLiteral) rs) as [|x0 l0] eqn:RL; cbn [some] in H.
    + exfalso. unfold useLiteralToken in H. rewrite bind_assoc in H. rewrite (bind_ok (get cLiteralIndex) _ c (cLiteralIndex c) c eq_refl) in H. rewrite (s_lindex _ _ _ _ _ _ _ S), M in H. discriminate.
    + injection H as <- _. apply LF_literal; [rewrite RL; discriminate|]. tauto.
  - intros b l F. cbn [iVar leaves]. apply (errs_map _ (CGroup _ _)). apply (errs_each _ (Forall (okVar rs)) (flat nodesIn) (flat literalsIn) (fun i a b => oneOf (map (chunkW rs a b) i))). eapply Forall_impl; [|exact F]. intros i Fi. cbn beta. split; [|split].
    + apply (runs_map rs res _ oneOf _ _ _ (fun a b => map (chunkW rs a b) i)). apply (runs_each rs res _ (okVar rs) nodesIn literalsIn (fun v a b => chunkW rs a b v)). apply Forall_forall. intros v _. apply (runs_var compiles).
    + apply (errs_map _ oneOf). apply (errs_each _ (okVar rs) nodesIn literalsIn (fun v a b => chunkW rs a b v)). eapply Forall_impl; [|exact Fi]. intros v E. cbn beta. split; [apply (runs_var compiles)|]. split; [exact E|apply clean_all].
    + intros OK. apply Forall_forall. intros v I0. apply flat_In in I0. destruct I0 as (w & I1 & I0). rewrite Forall_forall in OK. pose proof (clean_all w (OK w I1)) as C. rewrite Forall_forall in C. exact (C v I0).
Qed.
Lemma errs_seq l : errs (iSeq l) (seqLeaves l).
Proof.
  pose proof (errs_var (VList Round l)) as R. cbn [iVar leaves] in R. change (mapM (fun vs : list variant => let* xs := mapM iVar vs in ret (oneOf xs)) l) with (iSeq l) in R. intros N U df ls c e k S H. eapply R; [exact S|]. unfold bind. rewrite H. reflexivity.
Qed.
Lemma node_fails l N U df ls c n e k : St rs res N U df ls c -> iRecord compiles (RNode n l) c = RFail e k -> df n <> None /\ e = RE_nodeDefined (mkT KName n) \/ df n = None /\ firstLeaf (seqLeaves l) e.
Proof.
  intros S H. cbn [iRecord] in H. pose proof (nodeFree_run rs res N U df ls c n S) as F. unfold bind at 1 in H. destruct (nodeFree n c) as [u c0|e0 c0| |] eqn:NF; try discriminate.
  - destruct F as (DN & ->). right. split; [exact DN|]. destruct (addNode_run compiles rs res N U df ls c n true S) as (c1 & E1 & S1). rewrite (bind_ok _ _ _ _ _ E1) in H. unfold bind in H. destruct (iSeq l c1) as [cs c2|e2 c2| |] eqn:SE; try discriminate. injection H as -> _. eapply errs_seq; eauto.
  - injection H as -> _. left. split; [exact F|]. unfold nodeFree in NF. rewrite (bind_ok (get cNames) _ c (cNames c) c eq_refl) in NF. destruct (nodeIndex 0 n (cNames c)) as [i|]; [|discriminate]. unfold bind, get, orCrash in NF. destruct (zget (cDefs c) i) as [d|]; [|discriminate]. destruct d; [injection NF as <- _; reflexivity|discriminate].
Qed.
End Nodes.
(** ** All of a description *)
Lemma split_at {A} (a n b q : list A) r : a ++ n = b ++ r :: q -> (exists q', a = b ++ r :: q' /\ q = q' ++ n) \/ (exists b', b = a ++ b' /\ n = b' ++ r :: q).
Proof.
  intros E. apply app_eq_app in E. destruct E as (l & [(-> & E)|(-> & E)]); [|right; eauto]. destruct l as [|x l]; [right; exists []; rewrite !app_nil_r; auto|]. injection E as <- ->. left. eauto.
Qed.
Lemma none_app a nodes : none headFault a -> Forall laterRecord nodes -> none headFault (a ++ nodes).
Proof.
  intros N L b r q e E F. assert (NL : ~ laterRecord r). { intros LR. inversion F as [n ps X _|n ps X _|p n q' X _ _|ps p n q' _ (n' & X) _ _ _|p ps t re _ (n' & X) _ _ _]; [| | |destruct X as [X|X]|destruct X as [X|X]]; rewrite X in LR; destruct LR as [[]|[]]. }
  destruct (split_at _ _ _ _ _ E) as [(q' & E1 & _)|(b' & _ & E1)]; [exact (N _ _ _ _ E1 F)|]. rewrite E1 in L. apply Forall_app in L. destruct L as (_ & L). apply Forall_inv in L. contradiction.
Qed.
Lemma leaf_later hd nodes v e : Forall laterRecord nodes -> leafFault hd v e <-> leafFault (hd ++ nodes) v e.
Proof.
  intros L. split; intros F; inversion F as [n A|n A B|s A B]; subst; constructor; rewrite ?lt_typeNames, ?lt_types, ?lt_strings in * by exact L; assumption.
Qed.
Lemma nodes_fail hd nodes res c e : Forall (fun r => ~ isNode r) hd -> Forall laterRecord nodes -> St hd res [] [] noDefs (layersOf hd) c -> failsAt compiles nodes c e -> e <> RE_eof -> first (nodeFault (hd ++ nodes)) (hd ++ nodes) e.
Proof.
  intros NH L S (a & r & b & k1 & e' & k2 & E & IA & IR & SM) NE. exists (hd ++ a), r, b. split; [rewrite E, app_assoc; reflexivity|]. pose proof L as L'. rewrite E in L'. apply Forall_app in L'. destruct L' as (L1 & L2). apply Forall_inv in L2.
  rewrite <- (app_nil_r (layersOf hd)) in S.
  assert (S' : St hd res (mentioned []) (usedLiterals []) (defsOf hd (firsts (mentioned a)) (firsts (stringsIn any hd ++ usedLiterals a)) []) (layersOf hd ++ layersOf []) c) by exact S.
  pose proof (nodes_run compiles hd res _ _ a [] c eq_refl eq_refl S' (NoDup_nil _) L1) as R. rewrite IA in R. cbn [app] in R. destruct R as (ND & OK & SA).
  destruct r as [d args|m ps|m ps|y|n l]; try (destruct L2 as [[]|[]]; fail); [discriminate|].
  assert (SE : e = e') by (destruct SM as [SM|(_ & t & (p & (m & ps & [X|X]) & _) & _)]; [exact SM|discriminate|discriminate]). subst e'.
  assert (HD : nodesDefined (hd ++ a) = nodesDefined a) by (apply hd_defined, NH). split.
  - destruct (node_fails hd res l _ _ _ _ _ _ _ _ SA IR) as [(D & ->)|(D & p & v & q & LE & P & F)].
    + eapply NF_defined; [reflexivity|]. rewrite HD. destruct (In_dec_name n (nodesDefined a)) as [I0|I0]; [exact I0|]. exfalso. apply D, (defsOf_none compiles), I0.
    + eapply NF_leaf; [reflexivity|rewrite HD; eapply (defsOf_none compiles), D|exact LE| |apply leaf_later; eauto]. eapply Forall_impl; [|exact P]. intros w C e1 X. apply leaf_later in X; [|exact L]. exact (C e1 X).
  - intros a' r' b' e1 EA F. destruct (split_at _ _ _ _ _ EA) as [(q' & E1 & _)|(b1 & E1 & E2)].
    + rewrite E1 in NH. apply Forall_app in NH. destruct NH as (_ & NH). apply Forall_inv in NH. apply NH. inversion F as [? ? X _|? ? ? ? ? ? X _ _ _ _]; rewrite X; exact I.
    + inversion F as [n' l' X I0|n' l' p v q e2 X _ LE _ LF]; subst r'.
      * rewrite E1, hd_defined in I0 by exact NH. rewrite E2 in ND. unfold nodesDefined in ND. rewrite flat_app, flat_cons in ND. cbn [app] in ND. apply NoDup_remove_2 in ND. apply ND, in_or_app. left. exact I0.
      * rewrite E2 in OK. apply Forall_app in OK. destruct OK as (_ & OK). apply Forall_inv in OK. cbn in OK. apply clean_all in OK. change (leaves (VList Round l')) with (seqLeaves l') in OK. rewrite LE in OK. apply Forall_app in OK. destruct OK as (_ & OK). apply Forall_inv in OK. apply (OK e1). apply leaf_later in LF; [exact LF|exact L].
Qed.
Lemma description_fails hd nodes e : fits hd -> Forall (fun r => ~ isNode r) hd -> Forall laterRecord nodes -> descriptionFails compiles hd nodes start e -> e <> RE_eof -> reported compiles (hd ++ nodes) e.
Proof.
  intros F N L D NE. destruct D as [D|(k1 & IH & D)].
  - apply RP_head. destruct (head_fails hd e F N D NE) as (a & r & b & -> & X & Y). exists a, r, (b ++ nodes). split; [rewrite <- app_assoc; reflexivity|auto].
  - destruct F as (F1 & F2 & F3). pose proof (head_run compiles hd [] start (inv_start compiles) F1 N F2 F3) as H. rewrite IH in H. cbn [app] in H. pose proof (none_app hd nodes (headOk_clean hd (headOk_inv _ _ _ H)) L) as NF.
    pose proof (finish_run compiles hd k1 H) as FN. assert (LM : tooMany (hd ++ nodes) <-> ~ fitsIn hd) by (unfold tooMany, fitsIn; rewrite lt_defined, lt_early by exact L; lia).
    assert (XT : forall n, external (hd ++ nodes) n <-> In n (typesIn (dirEqb DExtern) hd)) by (intros n; unfold external; rewrite lt_types by exact L; reflexivity).
    destruct D as [(k2 & D)|(k2 & D & G)]; rewrite D in FN.
    + destruct FN as [(FI & ->)|(FI & p & n & q & U & P & Q & ->)]; [apply RP_limit; [exact NF|apply LM, FI]|]. eapply RP_extern; [exact NF|rewrite LM; tauto|rewrite lt_undefined by exact L; exact U| |rewrite XT; exact Q]. eapply Forall_impl; [|exact P]. intros m. rewrite XT. auto.
    + destruct FN as (FI & EX & res & RG & S). apply RP_node; [exact NF|rewrite LM; tauto| |eapply nodes_fail; eauto]. rewrite lt_undefined by exact L. apply Forall_forall. intros n I0. apply XT, EX, I0.
Qed.
End R.
