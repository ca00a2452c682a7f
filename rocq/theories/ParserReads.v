(** Tokens from the source to the tree when lexers give different tokens to different states. *)
From Coq Require Import ZArith List Bool Lia Arith.
From Verif Require Import Base BaseProofs Grammar Rules Parser ParserSpec ParserProofs ParserInv ParserStream ParserLook ParserErr ParserMain ParserWorld ParserFlowSpec RulesSpec ParserEnd ParserReadsSpec.
Import ListNotations.
Open Scope Z_scope.

Section P.
Context {Tok Src W E Inst R : Type}.
Variable c : config Tok Src W E Inst R.
Notation g := (cGrammar c).
Notation pstate := (pstate Tok Src W E Inst R).
Notation event := (event Tok E Inst R).
Notation tree := (tree Tok Inst R).
Notation clog := (clog (Tok:=Tok) (Src:=Src) (W:=W) (E:=E) (Inst:=Inst) (R:=R)).
Notation hooked := (hookedIn (cNodeHooks c)).
Notation trace := (trace (Tok:=Tok) (E:=E) (Inst:=Inst) (R:=R) hooked).
Notation treeOk := (treeOk (Tok:=Tok) (R:=R) hooked).
Notation nHooksC := (length (cTokenHooks c)).
Notation visible := (visible c).
Notation notEoi := (notEoi c).
Notation lastPass := (lastPass (Tok:=Tok) (E:=E) (Inst:=Inst) (R:=R)).

Section View.
Variable view : Src -> list Tok -> Prop.
Variable ended : Src -> Prop.
Variable eoi : Tok.
Hypothesis HS : readsOf c view ended eoi.
Hypothesis HQ : quietHooks c.
Hypothesis N0 : cTokenHooks c = [].
Hypothesis M0 : gMultiRules g = [].
Definition readR (x : world Src W * list event) (y : world Src W * list event) : Prop :=
  noFail (rev (snd y)) -> noFail (rev (snd x)) /\
  exists l taken eois, rev (snd y) = rev (snd x) ++ l /\
    somes (passed nHooksC l) = taken ++ eois /\ (forall ts, view (fst (fst y)) ts -> view (fst (fst x)) (taken ++ ts)) /\
    Forall (eq eoi) eois /\ (eois <> [] -> ended (fst (fst y))) /\ Forall (fun t => cType c t <> EoiTokenType) taken /\
    (forall t, lastPass (rev l) = Some (Some t) -> cType c t <> EoiTokenType -> cType c t <> EofTokenType ->
       exists taken0, taken = taken0 ++ [t] /\ forall ts, view (cUnread c t (fst (fst y))) ts -> view (fst (fst x)) (taken0 ++ ts)).
Lemma readR_hist x y : hist c x y -> readR x y.
Proof.
  induction 1 as [x|x y z HH IH HP].
  - intros H. split; auto. exists [], [], []. rewrite app_nil_r. repeat split; auto. congruence. intros t X. discriminate.
  - intros HN.
    assert (SAME : forall ev w', snd z = ev :: snd y -> fst z = w' -> fst w' = fst (fst y) -> passed nHooksC [ev] = [] -> (forall l, lastPass (ev :: l) = lastPass l) ->
      noFail (rev (snd x)) /\ exists l taken eois, rev (snd z) = rev (snd x) ++ l /\
       somes (passed nHooksC l) = taken ++ eois /\ (forall ts, view (fst (fst z)) ts -> view (fst (fst x)) (taken ++ ts)) /\
       Forall (eq eoi) eois /\ (eois <> [] -> ended (fst (fst z))) /\ Forall (fun t => cType c t <> EoiTokenType) taken /\
       (forall t, lastPass (rev l) = Some (Some t) -> cType c t <> EoiTokenType -> cType c t <> EofTokenType ->
       exists taken0, taken = taken0 ++ [t] /\ forall ts, view (cUnread c t (fst (fst z))) ts -> view (fst (fst x)) (taken0 ++ ts))).
    { intros ev w' E1 E2 E3 E4 E5. rewrite E1 in HN |- *. cbn [rev] in HN |- *. apply noFail_app in HN as [HN _].
      destruct (IH HN) as (N1 & l & taken & eois & L1 & L2 & L3 & L4 & L5 & L6 & L7). split; auto.
      exists (l ++ [ev]), taken, eois. rewrite L1, <- app_assoc, passed_app, E4, app_nil_r, E2, E3. repeat (split; [solve [auto]|]). intros t. rewrite rev_unit, E5. apply L7. }
    destruct HQ. inversion HP; subst; clear HP; cbn [fst snd] in *.
    all: try (eapply SAME; [reflexivity|reflexivity| |reflexivity|reflexivity]; auto; fail).
    + eapply SAME; [reflexivity|reflexivity| |reflexivity|reflexivity]. specialize (qh_newNode i node t w). rewrite H0 in qh_newNode. exact qh_newNode.
    + eapply SAME; [reflexivity|reflexivity| |reflexivity|reflexivity]. specialize (qh_token i t w). rewrite H in qh_token. exact qh_token.
    + eapply SAME; [reflexivity|reflexivity| |reflexivity|reflexivity]. specialize (qh_node i node x0 w). rewrite H in qh_node. exact qh_node.
    + eapply SAME; [reflexivity|reflexivity| |reflexivity|reflexivity]. specialize (qh_end i w). rewrite H in qh_end. exact qh_end.
    + eapply SAME; [reflexivity|reflexivity| |reflexivity|reflexivity]. specialize (qh_create table h node t w (nth_error_In _ _ H) H0). rewrite H1 in qh_create. exact qh_create.
    + eapply SAME; [reflexivity|reflexivity| |reflexivity|reflexivity]. specialize (qh_ctx w). rewrite H in qh_ctx. exact qh_ctx.
    + (* fetch *) cbn [rev] in HN. apply noFail_app in HN as [HN _]. destruct (IH HN) as (N1 & m & taken & eois & L1 & L2 & L3 & L4 & L5 & L6 & L7). split; auto.
      cbn [fst snd rev] in *. exists (m ++ [EvPass nHooksC t]). rewrite L1, <- app_assoc, passed_app, somes_app, L2, rev_unit. cbn [passed flat_map]. rewrite Nat.eqb_refl. cbn [app].
      destruct t as [t|]; cbn [somes flat_map app].
      * destruct (ro_token _ _ _ _ HS _ _ _ _ H) as [(T1 & T2 & T3)|(-> & T1 & T2 & T3)].
        -- assert (eois = []) as -> by (destruct eois; auto; destruct T2; apply L5; discriminate).
           exists (taken ++ [t]), []. rewrite !app_nil_r. split; [reflexivity|]. split; [auto|]. split; [intros ts V; rewrite <- app_assoc; apply L3, T3, V|]. split; [constructor|]. split; [congruence|]. split; [apply Forall_app; auto|].
           intros t1 X A B. injection X as <-. exists taken. split; [reflexivity|]. intros ts V. apply L3. exact (ro_unread _ _ _ _ HS _ _ _ _ H A B ts V).
        -- exists taken, (eois ++ [eoi]). rewrite <- app_assoc. do 3 (split; [auto|]). split; [apply Forall_app; auto|]. split; [auto|]. split; [auto|]. intros t1 X A. injection X as <-. destruct (A (ro_eoi _ _ _ _ HS)).
      * destruct (ro_none _ _ _ _ HS _ _ _ H) as (T1 & T2). exists taken, eois. rewrite app_nil_r. repeat (split; [solve [auto]|]). intros t1 X. discriminate.
    + (* failed fetch *) cbn [rev] in HN. apply noFail_app in HN as [_ HN]. discriminate.
    + exfalso. rewrite N0 in H. cbn in H. lia.
    + exfalso. rewrite N0 in H. destruct H.
    + cbn [rev] in HN. apply noFail_app in HN as [_ HN]. discriminate.
Qed.

Lemma seen_taken l taken eois : somes (passed nHooksC l) = taken ++ eois -> Forall (eq eoi) eois ->
  Forall (fun t => cType c t <> EoiTokenType) taken -> filter notEoi (somes (kept c l)) = filter visible taken.
Proof.
  intros H1 H2 H3. unfold kept. rewrite N0 in H1. cbn [length] in H1.
  assert (EN : filter notEoi eois = []). { clear - HS H2. induction H2 as [|t l <- _ IH]; cbn; auto. unfold ParserEnd.notEoi at 1. rewrite (ro_eoi _ _ _ _ HS), Z.eqb_refl. exact IH. }
  rewrite somes_visible, H1, filter_comm, filter_app, EN, (notEoi_all c _ H3), app_nil_r. auto.
Qed.
(** the rest of the source *)
Lemma rest_all t0 T left fuel s3 u s4 : RI c t0 T left s3 -> rests (clog s3) = [] -> pTokens s3 = [] -> restLoop c fuel s3 = Done u s4 -> noFail (clog s4) ->
  exists toks, (forall ts, view (fst (pWorld s4)) ts -> view (fst (pWorld s3)) (toks ++ ts)) /\ ended (fst (pWorld s4)) /\ Forall (sideT c) (filter visible toks).
Proof.
  intros HR R0 T0 HD NF. pose proof (restLoop_ok c t0 T left fuel s3 HR) as HO. pose proof (hs_restLoop c fuel s3) as HH.
  rewrite HD in HO, HH. cbn [post hs] in HO, HH. destruct HO as (R4 & HN & ss & e & HR4 & HSs & HE). rewrite R0 in HR4. cbn [app] in HR4.
  destruct (readR_hist _ _ HH NF) as (_ & l & taken & eois & L1 & L2 & L3 & L4 & L5 & L6 & _). cbn [at_ fst snd] in *.
  change (rev (pLog s4)) with (clog s4) in L1. change (rev (pLog s3)) with (clog s3) in L1.
  assert (HKL : somes (kept c l) = ss ++ [e] ++ somes (pTokens s4)).
  { pose proof (r_kept _ _ _ _ _ R4) as K4. pose proof (r_kept _ _ _ _ _ HR) as K3. rewrite L1, kept_app, K3, R0, T0, <- L1, HN, HR4 in K4. cbn [map app] in K4.
    rewrite app_nil_r in K4. apply app_inv_head in K4. rewrite K4, somes_app. 
    assert (SM : forall l : list Tok, somes (map Some l) = l) by (induction l0 as [|? ? IH]; cbn; [auto|unfold somes in IH; rewrite IH; auto]).
    rewrite SM, <- app_assoc. auto. }
  unfold kept in HKL. rewrite N0 in L2. cbn [length] in L2. rewrite somes_visible, L2, filter_app in HKL. cbn [app] in HKL.
  exists taken. split; [exact L3|]. split.
  - apply L5. intros ->. cbn [filter] in HKL. rewrite app_nil_r in HKL. assert (X : In e (filter visible taken)) by (rewrite HKL; apply in_elt).
    apply filter_In in X. rewrite Forall_forall in L6. apply (L6 e); tauto.
  - eapply prefix_side; [apply Forall_filter; exact L6|exact HE|exact HKL|exact HSs].
Qed.

Lemma reads_all fuel w t0 r s : parseFrom c fuel w t0 = Done r s ->
  exists T toks, treeOk T /\ (isRoot t0 T /\ (tablesOk g -> derived (cType c) (cText c) (cUpper c) g RootNode T)) /\ nodeEvents (clog s) = trace [] T /\
    (forall ts, view (fst (pWorld s)) ts -> view (fst w) (toks ++ ts)) /\
    exists ss, filter visible toks = filter notEoi (leaves T) ++ ss /\ Forall (sideT c) ss /\ (cFullSource c = false -> ss = []) /\
    (cFullSource c = true -> ended (fst (pWorld s))).
Proof.
  intros HP.
  assert (NF : noFail (clog s)).
  { pose proof (errs_parseFrom c failed True (fun ev H _ => H) (or_introl (fun _ => M0)) fuel w t0) as H. rewrite HP in H. specialize (H Logic.I).
    unfold noFail, ParserProofs.clog. rewrite forallb_forall in *. intros x Hx. apply H, in_rev. auto. }
  unfold parseFrom, start in HP. set (s0 := mkP w [] (repeat [] (length (cTokenHooks c))) [] None [] [] false) in HP.
  pose proof (pushNode_ok c t0 (G c s0) (G c s0) [] [] s0 RootNode (Some t0)) as HPu.
  specialize (HPu (conj eq_refl (conj eq_refl (conj eq_refl (conj eq_refl eq_refl))))).
  pose proof (hs_pushNode c RootNode (Some t0) s0) as HH0. pose proof (np_pushNode c RootNode (Some t0) s0) as HNP.
  destruct (pushNode c RootNode (Some t0) s0) as [u s1|e s1| |s1]; cbn [bind post hs] in *; try discriminate.
  destruct HPu as ([A1 A2 A3 A4 (m & A5 & A6)] & (fs & HI) & _). destruct (allN_kept c m A5) as (K1 & K2 & K3 & K4).
  assert (MM : MI c t0 true None s1).
  { change (clog s0) with (@nil event) in A6. cbn [app] in A6. constructor; try rewrite A6.
    - exists []. split; [|rewrite K2; auto]. left. exists fs. unfold G. rewrite A4. exact HI.
    - rewrite K1, K2, A1. auto.
    - intros [X|X]; [discriminate|congruence].
    - auto.
    - unfold ParserStream.layersOk. rewrite A2. apply repeat_length.
    - intros _ k HK. rewrite A6. destruct (K4 k) as [P1 P2]. destruct (K4 (S k)) as [P3 _]. rewrite P1, P2, P3, A2. split; auto.
      cbn. apply nth_repeat.
    - intros _. rewrite A3. apply replays_nil.
    - apply allN_noNF. auto.
    - intros _. rewrite A4. auto. }
  pose proof (parseLoop_ok c t0 fuel true None s1 MM) as HL. pose proof (hs_parseLoop c fuel true None s1) as HH1.
  destruct HNP as (NP1 & NP2 & NP3).
  pose proof (parseLoop_last c N0 M0 fuel true None s1 NP1 NP2 (or_intror (conj eq_refl eq_refl))) as HLast.
  unfold parse in HP. destruct (parseLoop c fuel true None s1) as [[used t] s2|e s2| |s2]; cbn [bind post hs] in *; try discriminate.
  destruct HL as [ES M1]. cbn [fst snd] in *. destruct HLast as [T0 HLast].
  destruct M1 as [(U & HT & HUs) HK HC HR HLy HFl HRp HNF HLs].
  destruct HT as [(fs1 & I1)|(T & C1)].
  { exfalso. pose proof (i_match _ _ _ _ _ _ I1) as X. rewrite ES in X. inversion X; subst. exact (i_rooted _ _ _ _ _ _ I1). }
  pose proof (hist_trans c _ _ _ HH0 HH1) as HH.
  destruct (if used then Some s2 else _) as [s3|] eqn:E3; [|discriminate].
  assert (S3 : pLog s3 = pLog s2 /\ pStack s3 = pStack s2 /\ pLast s3 = pLast s2 /\ pQueues s3 = pQueues s2 /\ pTokens s3 = pTokens s2 /\ pLost s3 = pLost s2).
  { destruct used; [injection E3 as <-; auto 6|]. destruct t as [t|]; [|discriminate]. injection E3 as <-. destruct (_ =? _); auto 6. }
  destruct S3 as (S3a & S3b & S3c & S3d & S3e & S3f).
  assert (S3a' : clog s3 = clog s2) by (unfold ParserProofs.clog; rewrite S3a; auto).
  set (more := cFullSource c && match t with None => true | Some t => negb (cType c t =? EoiTokenType) end) in HP.
  assert (NF2 : noFail (clog s2)).
  { assert (X : hist c (at_ s3) (at_ s)).
    { destruct more.
      - pose proof (hs_restLoop c fuel s3) as HR3. destruct (restLoop c fuel s3) as [u' s4| | |]; cbn [bind hs] in *; try discriminate.
        injection HP as _ <-. exact HR3.
      - cbn [bind] in HP. injection HP as _ <-. constructor. }
    rewrite <- S3a'. apply (readR_hist _ _ X NF). }
  destruct (readR_hist _ _ HH NF2) as (_ & l & taken & eois & L1 & L2 & L3 & L4 & L5 & L6 & L7). cbn [at_ fst snd rev app] in L1, L2, L3, L5, L7.
  change (pWorld s0) with w in L3, L7. change (pLog s0) with (@nil event) in L1. cbn [rev app] in L1. change (rev (pLog s2)) with (clog s2) in L1.
  assert (RL : rev l = pLog s2) by (rewrite <- L1; unfold ParserProofs.clog; apply rev_involutive). rewrite <- L1 in L2.
  pose proof (seen_taken _ _ _ L2 L4 L6) as SEEN. rewrite HK, T0, app_nil_r, HUs, filter_app in SEEN.
  assert (LV : leaves T = U) by apply C1.
  assert (VIS : forall x, t = Some x -> visible x = true /\ In x (taken ++ eois)).
  { intros x ->. destruct HC as (N & HC); [right; discriminate|]. assert (X : In (Some x) (kept c (clog s2))) by (rewrite HK, HC; apply in_or_app; left; apply in_or_app; right; left; auto).
    unfold kept in X. apply filter_In in X as [X1 X2]. rewrite <- visible_keep in X2. split; auto. rewrite <- L2, N0. apply in_flat_map. exists (Some x). split; [exact X1|left; auto]. }
  assert (R3 : RI c t0 T (if used then [] else optTok t) s3).
  { constructor; try rewrite S3a'; auto.
    - exists U. split; auto. apply (Closed_str c t0 (G c s2) _ T U s2); auto; [unfold G; rewrite S3f; auto|rewrite S3a'; auto].
    - rewrite HR, HK, S3e. auto.
    - unfold ParserStream.layersOk. rewrite S3d. auto.
    - intros X k HKk. rewrite S3a', S3d. apply HFl; auto.
    - rewrite S3f. auto. }
  assert (EVS : nodeEvents (clog s2) = trace [] T) by apply C1.
  (* the source after the tree *)
  assert (AFTER : exists toks, (forall ts, view (fst (pWorld s3)) ts -> view (fst w) (toks ++ ts)) /\ filter visible toks = filter notEoi (leaves T)).
  { destruct used.
    - injection E3 as <-. exists taken. split; [exact L3|]. rewrite LV. cbn [filter] in SEEN. rewrite app_nil_r in SEEN. auto.
    - destruct t as [t|]; [|discriminate]. unfold ParserEnd.notEoi in *. destruct (cType c t =? EoiTokenType) eqn:ET; injection E3 as <-.
      + exists taken. split; [exact L3|]. rewrite LV, <- SEEN. cbn [optTok filter]. rewrite ET. cbn [negb]. apply app_nil_r.
      + destruct HLast as [HLast|[X _]]; [|discriminate]. destruct (VIS t eq_refl) as [VT _].
        assert (NF3 : cType c t <> EofTokenType). { unfold ParserFlowSpec.visible in VT. apply andb_true_iff in VT. destruct VT as (VT & _). apply negb_true_iff, Z.eqb_neq in VT. exact VT. }
        rewrite RL in L7. destruct (L7 t HLast (proj1 (Z.eqb_neq _ _) ET) NF3) as (taken0 & -> & L8). exists taken0. split; [exact L8|].
        rewrite filter_app in SEEN. cbn [optTok filter] in SEEN. rewrite ET, VT in SEEN. cbn [negb] in SEEN. rewrite LV. symmetry. exact (app_inv_tail _ _ _ SEEN). }
  destruct AFTER as (toks & AV & AL).
  assert (ROOT : isRoot t0 T /\ (tablesOk g -> derived (cType c) (cText c) (cUpper c) g RootNode T)) by (split; [apply C1|intros TOK; apply C1; split; [apply HLs, M0|exact TOK]]).
  destruct more eqn:MO.
  - pose proof (restLoop_ok c t0 T _ fuel s3 R3) as HO. destruct (restLoop c fuel s3) as [u' s4| | |] eqn:ER; cbn [bind post] in *; try discriminate.
    injection HP as _ <-. destruct HO as (R4 & _). destruct (r_closed _ _ _ _ _ R4) as (U4 & C4 & _).
    assert (T3 : pTokens s3 = []) by (rewrite S3e; exact T0).
    destruct (rest_all t0 T _ fuel s3 u' s4 R3 ltac:(rewrite S3a'; exact HR) T3 ER NF) as (more' & V4 & E4 & SD).
    exists T, (toks ++ more'). split; [apply C1|]. split; [exact ROOT|]. split; [apply C4|]. split; [intros ts V; rewrite <- app_assoc; apply AV, V4, V|].
    exists (filter visible more'). split; [rewrite filter_app, AL; reflexivity|]. split; [exact SD|]. split; [|auto]. intros X. subst more. rewrite X in MO. discriminate.
  - cbn [bind] in HP. injection HP as _ <-. exists T, toks. split; [apply C1|]. split; [exact ROOT|]. split; [rewrite S3a'; exact EVS|]. split; [exact AV|].
    exists []. rewrite app_nil_r. split; [exact AL|]. split; [constructor|]. split; [auto|]. intros X. subst more. rewrite X in MO. cbn [andb] in MO.
    destruct t as [t|]; [|discriminate]. apply negb_false_iff in MO. destruct (VIS t eq_refl) as [_ VI].
    assert (EN : ended (fst (pWorld s2))). { apply L5. intros ->. rewrite app_nil_r in VI. rewrite Forall_forall in L6. apply (L6 t VI), Z.eqb_eq, MO. }
    destruct used; [injection E3 as <-; exact EN|]. rewrite MO in E3. injection E3 as <-. exact EN.
Qed.
End View.
End P.
