(** The parser as a whole. *)
From Coq Require Import ZArith List Bool Lia Arith.
From Verif Require Import Base BaseProofs Grammar Rules RulesSpec Prop_Rules Parser ParserSpec ParserProofs ParserInv ParserStream ParserLook ParserErr.
Import ListNotations.
Open Scope Z_scope.

Section P.
Context {Tok Src W E Inst R : Type}.
Variable c : config Tok Src W E Inst R.
Notation g := (cGrammar c).
Notation pstate := (pstate Tok Src W E Inst R).
Notation event := (event Tok E Inst R).
Notation res := (res Tok Src W E Inst R).
Notation tree := (tree Tok Inst R).
Notation nodeRec := (nodeRec Tok Inst).
Notation look := (Parser.look (Tok:=Tok) (Inst:=Inst)).
Notation clog := (clog (Tok:=Tok) (Src:=Src) (W:=W) (E:=E) (Inst:=Inst) (R:=R)).
Notation findRules := (findRules (cType c) (cText c) (cUpper c) g).
Notation hooked := (hookedIn (cNodeHooks c)).
Notation trace := (trace (Tok:=Tok) (E:=E) (Inst:=Inst) (R:=R) hooked).
Notation treeOk := (treeOk (Tok:=Tok) (R:=R) hooked).
Notation derived := (derived (Inst:=Inst) (R:=R) (cType c) (cText c) (cUpper c) g).
Notation flowsAll := (flows 0 (length (cTokenHooks c))).
Notation kept := (kept c).
Notation layersOk := (layersOk c).
Notation canReplay := (canReplay c).

Definition quiet (s s' : pstate) : Prop := exists l, clog s' = clog s ++ l /\ allS l.
Lemma quiet_refl s : quiet s s. Proof. exists []. split; [rewrite app_nil_r; auto|reflexivity]. Qed.
Lemma quiet_trans s1 s2 s3 : quiet s1 s2 -> quiet s2 s3 -> quiet s1 s3.
Proof. intros (l & A & B) (m & C & D). exists (l ++ m). split; [rewrite C, A, app_assoc; auto|apply allS_app; auto]. Qed.
Lemma str_quiet s l s' : str s l s' -> quiet s s'.
Proof. intros []. exists l. auto. Qed.
Lemma taken_quiet s t s' : taken c s t s' -> quiet s s'.
Proof. intros []. destruct tk_log as (l & A & B & _). exists l. auto. Qed.

(** the failure is in the log *)
Lemma errs_noFail {A} (m : res A) : errs failed False m -> match m with Fail _ s => ~ noFail (clog s) | _ => True end.
Proof.
  destruct m as [|e s| |]; cbn; auto. intros (ev & r & E1 & E2 & _) H. unfold ParserProofs.clog in H. rewrite E1 in H. cbn in H. apply noFail_app in H as [_ H].
  unfold noFail in H. cbn in H. destruct ev; discriminate.
Qed.
Lemma fail_noFail fuel types s : match nextToken c fuel types s with Fail _ s => ~ noFail (clog s) | _ => True end.
Proof. apply errs_noFail. apply errs_nextToken; [auto|]. intros []. Qed.

(** ** Lookahead *)
Lemma canReplay_ext : forall ls toks rs x, canReplay ls toks rs -> canReplay ls (toks ++ x) rs.
Proof. intros ls toks rs x H. induction H; [constructor|]. eapply CR_cons; eauto. apply step_ext. auto. Qed.

Definition lookPost (s0 : list nodeRec) (A tokens : list (option Tok)) (s : pstate) (x : list (option Tok) * list rule) (s' : pstate) : Prop :=
  pApplied s' = pApplied s /\ pLast s' = pLast s /\ pStack s' = pStack s /\ layersOk s' /\
  (exists l, clog s' = clog s ++ l /\ allS l /\ (noFail (clog s') -> flowsAll s l s')) /\
  kept (clog s') = A ++ fst x ++ pTokens s' /\ prefix tokens (fst x) /\
  (pLost s' = false -> pLost s = false /\ canReplay s0 (fst x) (snd x)).

Lemma flows_same n (s s' : pstate) : pQueues s' = pQueues s -> flows 0 n s [] s'.
Proof. intros E1 k _. rewrite E1. split; auto. cbn. rewrite app_nil_r. auto. Qed.

Lemma lookLoop_ok s0 A : forall fuel t tokens k s, layersOk s ->
  kept (clog s) = A ++ (tokens ++ [t]) ++ pTokens s ->
  (pLost s = false -> KI c s0 (tokens ++ [t]) t (kNext k) (mkLook (kStore k) [] [] None (kError k))) ->
  post (lookLoop c fuel t tokens k s) (lookPost s0 A (tokens ++ [t]) s) (quiet s).
Proof.
  induction fuel as [|f IH]; intros t tokens k s HL HK HI; cbn [lookLoop]; [apply quiet_refl|].
  destruct (lookRound c (S f) t 0 (kNext k) _ (pLost s)) as [[[k1 lost]|]|] eqn:ER; [|exact I|apply quiet_refl].
  assert (LOST : lost = false -> pLost s = false /\ KI c s0 (tokens ++ [t]) t [] k1 /\ kQueue k1 = []).
  { intros ->. assert (PL : pLost s = false) by (destruct (pLost s) eqn:X; auto; apply lookRound_lost in ER; [discriminate|auto]).
    split; auto. rewrite PL in ER. eapply (lookRound_ok c s0); [apply HI; auto| |exact ER]. reflexivity. }
  clear ER HI. set (s1 := setLost s lost).
  set (fin := fun s2 : pstate => match match kNext k1 with b :: _ => Some b | [] => match kSuccess k1 with Some b => Some b | None => kError k1 end end with
      | None => Panic | Some b => match nth_error (kStore k1) b with Some br => Done (tokens ++ [t], bRules br) s2 | None => Panic end end).
  assert (FIN : forall s2, layersOk s2 -> pApplied s2 = pApplied s -> pLast s2 = pLast s -> pStack s2 = pStack s -> pTokens s2 = pTokens s -> pLost s2 = lost ->
    (exists l, clog s2 = clog s ++ l /\ allS l /\ (noFail (clog s2) -> flowsAll s l s2)) -> kept (clog s2) = kept (clog s) ->
    post (fin s2) (lookPost s0 A (tokens ++ [t]) s) (quiet s)).
  { intros s2 B1 B2 B3 B4 B5 B6 B7 B8. unfold fin.
    destruct (match kNext k1 with b :: _ => Some b | [] => _ end) as [b|]; [|exact I]. destruct (nth_error (kStore k1) b) as [br|] eqn:EB; [|exact I].
    cbn [post]. unfold lookPost. cbn [fst snd]. do 5 (split; [assumption|]). split; [|split; [|intros PL; split]].
    - rewrite B8, B5. exact HK.
    - apply prefix_refl.
    - destruct (LOST ltac:(congruence)) as (X & _ & _). exact X.
    - destruct (LOST ltac:(congruence)) as (_ & X & _). pose proof (ki_store _ _ _ _ _ _ X) as Y. rewrite Forall_forall in Y.
      destruct (Y br (nth_error_In _ _ EB)) as (rem & BR). rewrite <- (app_nil_r (bRules br)). eapply brun_replay; [exact BR|]. constructor. }
  assert (SAME : exists l, clog s1 = clog s ++ l /\ allS l /\ (noFail (clog s1) -> flowsAll s l s1)).
  { exists []. split; [rewrite app_nil_r; auto|]. split; [reflexivity|]. intros _. apply flows_same. auto. }
  destruct (length (kNext k1) <=? 1)%nat; [exact (FIN s1 HL eq_refl eq_refl eq_refl eq_refl eq_refl SAME eq_refl)|].
  destruct (lookTypes (kStore k1) (kNext k1) =? 0); [exact (FIN s1 HL eq_refl eq_refl eq_refl eq_refl eq_refl SAME eq_refl)|].
  pose proof (nextToken_ok c (S f) (lookTypes (kStore k1) (kNext k1)) s1 HL) as HN.
  pose proof (fail_noFail (S f) (lookTypes (kStore k1) (kNext k1)) s1) as HF.
  destruct (nextToken c (S f) (lookTypes (kStore k1) (kNext k1)) s1) as [t2 s2|e s2| |s2]; cbn [post] in *; auto.
  - eapply post_weak; [apply (IH t2 (tokens ++ [t]) k1 s2)| |].
    + apply HN.
    + rewrite (tk_tokens _ _ _ _ HN (A ++ tokens ++ [t])); [rewrite <- !app_assoc; auto|]. rewrite <- app_assoc. exact HK.
    + rewrite (tk_lost _ _ _ _ HN). intros PL. destruct (LOST PL) as (_ & X & Y). apply (KI_start c s0 _ _ _ _ _ X Y).
    + intros x s3 (B1 & B2 & B3 & B4 & (l & B5 & B6 & B7) & B8 & B9 & B10). destruct HN as [N1 N2 N3 N4 N5 (m & N6 & N7 & N8) N9].
      assert (SF : noFail (clog s3) -> noFail (clog s1)) by (intros X; rewrite B5, N6 in X; apply noFail_app in X as [X _]; apply noFail_app in X; tauto).
      unfold lookPost. split; [exact (eq_trans B1 N1)|]. split; [exact (eq_trans B2 N2)|]. split; [exact (eq_trans B3 N3)|]. split; [auto|]. split; [|split; [auto|split]].
      * exists (m ++ l). split; [rewrite B5, N6, app_assoc; auto|]. split; [apply allS_app; auto|].
        intros X. eapply flows_trans; [apply (N8 (SF X))|apply B7; auto].
      * eapply prefix_trans; [|exact B9]. apply prefix_app_l. apply prefix_refl.
      * intros PL. destruct (B10 PL) as [X Y]. split; auto. apply LOST. rewrite N4 in X. exact X.
    + intros s3 HQ. eapply quiet_trans; [|exact HQ]. destruct HN as [_ _ _ _ _ (m & N6 & N7 & _) _]. exists m. auto.
  - destruct HN as [(l & HS & HKK) HE]. destruct HS.
    apply FIN; auto.
    + unfold ParserStream.layersOk in *. rewrite str_len. auto.
    + exists l. split; [exact str_log|]. split; auto. intros X. contradiction.
  - destruct HN as [(l & HS & _) _]. destruct HS. exists l. auto.
Qed.

(** Rules found by a lookahead are still applicable, until all of them are applied. *)
Definition replays (st : list nodeRec) toks rs : Prop := exists ls rest, st = ls ++ rest /\ canReplay ls toks rs.
Lemma replays_nil st toks : replays st toks [].
Proof. exists [], st. split; auto. constructor. Qed.

Lemma replay_step n ns t toks r rs st : replays (bareS (n :: ns)) (t :: toks) (r :: rs) -> zget (gStates g) (nState n) = Some st ->
  (tablesOk g -> fits c (nState n) t r) /\
  forall cons st', dryRule c t r (bareS (n :: ns)) = Some (cons, st') -> replays st' (if cons then toks else t :: toks) rs.
Proof.
  intros (ls & rest & E1 & HC) ES. inversion HC as [|ls' toks' r' ls2 toks2 rs' HS HC2]; subst.
  inversion HS as [m ls0 t' tk r' st' l cons ls3 A1 A2 A3 A4]; subst. cbn [bareS map app] in E1. injection E1 as <- E1.
  change (nState (bare n)) with (nState n) in A1. split.
  - intros TO. eapply findRules_fits; eauto.
  - intros cons' stk HD. change (bareS (n :: ns)) with (bare n :: map bare ns) in HD. rewrite E1 in HD.
    change (bare n :: ls0 ++ rest) with ((bare n :: ls0) ++ rest) in HD. rewrite (dryRule_app c _ _ _ rest _ _ A4) in HD.
    injection HD as <- <-. destruct ls2 as [|x y].
    + apply canReplay_nil in HC2. subst. apply replays_nil.
    + exists (x :: y), rest. auto.
Qed.

Definition nrPost (A : list (option Tok)) (n : nodeRec) t (s : pstate) (ro : option rule) (s' : pstate) : Prop :=
  pLast s' = pLast s /\ pStack s' = pStack s /\ layersOk s' /\
  (exists l, clog s' = clog s ++ l /\ allS l /\ (noFail (clog s') -> flowsAll s l s')) /\
  kept (clog s') = A ++ [t] ++ pTokens s' /\ (pLost s' = false -> pLost s = false) /\ (gMultiRules g = [] -> pLost s' = pLost s) /\
  match ro with
  | None => s' = s /\ pApplied s = []
  | Some r => pLost s' = false ->
      (tablesOk g -> fits c (nState n) t r) /\
      forall cons st', dryRule c t r (bareS (pStack s')) = Some (cons, st') ->
        replays st' (if cons then pTokens s' else t :: pTokens s') (pApplied s')
  end.

Lemma nextRule_ok A fuel t st s n ns : layersOk s -> kept (clog s) = A ++ [t] ++ pTokens s ->
  pStack s = n :: ns -> zget (gStates g) (nState n) = Some st ->
  (pLost s = false -> replays (bareS (pStack s)) (t :: pTokens s) (pApplied s)) ->
  post (nextRule c fuel t st s) (nrPost A n t s) (quiet s).
Proof.
  intros HL HK EN ES HR. unfold nextRule.
  assert (SAME : forall s' : pstate, clog s' = clog s -> pQueues s' = pQueues s -> exists l, clog s' = clog s ++ l /\ allS l /\ (noFail (clog s') -> flowsAll s l s')).
  { intros s' E1 E2. exists []. split; [rewrite app_nil_r; auto|]. split; [reflexivity|]. intros _. apply flows_same. auto. }
  destruct (pApplied s) as [|r rest] eqn:EA.
  - destruct (findRules t st) as [[|r1 [|r2 rs]]|] eqn:EF; [| | |exact I].
    + cbn [post]. unfold nrPost. repeat (split; auto).
    + cbn [post]. unfold nrPost. do 7 (split; auto). intros _. split.
      * intros TO. eapply findRules_fits; eauto. left. auto.
      * intros. rewrite EA. apply replays_nil.
    + unfold resolveConflict. rewrite EN.
      assert (HI : pLost s = false -> KI c [bare n] ([] ++ [t]) t [0%nat] (mkLook [mkBranch [bare n] []] [] [] None None)).
      { intros _. constructor; cbn [kStore kNext kQueue].
        - constructor; auto. exists [t]. apply B_nil.
        - cbn. constructor; auto. exists (mkBranch [bare n] []). split; auto. apply B_nil.
        - constructor.
        - repeat constructor. intros []. }
      pose proof (lookLoop_ok [bare n] A fuel t [] (mkLook [mkBranch [bare n] []] [0%nat] [] None None) s HL HK HI) as H.
      change (mkNodeRec [] [] (nTypes n) (nIndex n) (nState n)) with (bare n).
      destruct (lookLoop c fuel t [] _ s) as [[tokens rules] s1|e s1| |s1]; cbn [bind post] in *; auto.
      destruct H as (B1 & B2 & B3 & B4 & (l & B5 & B6 & B7) & B8 & (tl0 & B9) & B10). cbn [fst snd] in *.
      destruct rules as [|r rest]; [exact I|]. cbn [post]. subst tokens. cbn [app tl] in *.
      unfold nrPost. split; [auto|]. split; [auto|]. split; [auto|]. split; [exists l; auto|]. split; [|split; [|split]].
      * cbn [pTokens setApplied setTokens]. exact B8.
      * intros PL. apply B10. auto.
      * intros NM. apply (findRules_one c) in EF; auto. cbn in EF. lia.
      * intros PL. destruct (B10 PL) as [P1 P2]. cbn [pTokens setApplied setTokens pApplied pStack]. rewrite B3, EN.
        apply (replay_step n ns t (tl0 ++ pTokens s1) r rest st); auto.
        exists [bare n], (bareS ns). split; auto. apply (canReplay_ext _ _ _ (pTokens s1)) in P2. exact P2.
  - cbn [post]. unfold nrPost. split; auto. split; auto. split; auto. split; [apply SAME; auto|]. split; [exact HK|]. split; auto. split; auto.
    intros PL. cbn [pTokens setApplied pApplied pStack]. specialize (HR PL). rewrite EN in *. eapply replay_step; eauto.
Qed.

(** ** The main loop *)
Definition isNodeFail (ev : event) : bool := match ev with EvNodeFail _ => true | _ => false end.
Definition noNF (l : list event) : Prop := forallb (fun ev => negb (isNodeFail ev)) l = true.
Lemma noNF_app a b : noNF (a ++ b) <-> noNF a /\ noNF b.
Proof. unfold noNF. rewrite forallb_app, andb_true_iff. tauto. Qed.
Lemma allS_noNF l : allS l -> noNF l.
Proof. unfold allS, noNF. induction l as [|ev l IH]; cbn; auto. destruct ev; cbn; auto; discriminate. Qed.
Lemma allN_noNF (l : list event) : allN l -> noNF l.
Proof. unfold allN, noNF. induction l as [|ev l IH]; cbn; auto. destruct ev; cbn; auto; discriminate. Qed.
Lemma allN_kept (l : list event) : allN l -> kept l = [] /\ nexts l = [] /\ rests l = [] /\ (forall k, passed k l = [] /\ decisions k l = []).
Proof.
  unfold allN, ParserStream.kept. induction l as [|ev l IH]; [repeat split; auto|]. cbn [forallb]. intros H. apply andb_true_iff in H as [H1 H2].
  specialize (IH H2). destruct ev; try discriminate; exact IH.
Qed.
(** an error of a node hook ends the log *)
Definition nfLast (l : list event) : Prop := forall a e b, l = a ++ EvNodeFail e :: b -> b = [].
Lemma noNF_in l e : noNF l -> ~ In (EvNodeFail e) l.
Proof. unfold noNF. rewrite forallb_forall. intros H HI. specialize (H _ HI). discriminate. Qed.
Lemma noNF_last l : noNF l -> nfLast l.
Proof. intros H a e b ->. exfalso. eapply (noNF_in _ e H). apply in_or_app. right. left. auto. Qed.
Lemma nfLast_snoc l ev : noNF l -> nfLast (l ++ [ev]).
Proof.
  intros H a e b E1. destruct b as [|x b] using rev_ind; auto. exfalso. clear IHb.
  change (a ++ EvNodeFail e :: b ++ [x]) with (a ++ (EvNodeFail e :: b) ++ [x]) in E1. rewrite app_assoc in E1.
  apply app_inj_tail in E1 as [-> _]. eapply (noNF_in _ e H). apply in_or_app. right. left. auto.
Qed.

(** All hook layers together, from the start *)
Definition flowI (s : pstate) : Prop := forall k, (k < length (cTokenHooks c))%nat ->
  map fst (decisions k (clog s)) = somes (passed (S k) (clog s)) /\
  somes (passed k (clog s)) ++ nth k (pQueues s) [] = flat_map repl (decisions k (clog s)).
Lemma flowI_step s l s' : flowI s -> clog s' = clog s ++ l -> flowsAll s l s' -> flowI s'.
Proof.
  intros HF HC HS k HK. destruct (HF k HK) as [A1 A2]. destruct (HS k ltac:(lia)) as [B1 B2].
  rewrite HC, !decisions_app, !passed_app, !somes_app, map_app, flat_map_app. split; [congruence|].
  rewrite <- app_assoc, B2, app_assoc, A2. auto.
Qed.
Lemma flows_none n (s : pstate) l (s' : pstate) : pQueues s' = pQueues s -> (forall k, passed k l = [] /\ decisions k l = []) -> flows 0 n s l s'.
Proof. intros E1 H k _. destruct (H k) as [A1 A2]. destruct (H (S k)) as [B1 _]. rewrite A1, A2, B1, E1. split; auto. cbn. rewrite app_nil_r. auto. Qed.

Definition G (s : pstate) : Prop := pLost s = false /\ tablesOk g.
Record MI (t0 : Tok) (used : bool) (t : option Tok) (s : pstate) : Prop := mkMI {
  m_tree : exists U, HInv c t0 (G s) U s /\ somes (nexts (clog s)) = U ++ (if used then [] else optTok t);
  m_kept : kept (clog s) = nexts (clog s) ++ pTokens s;
  m_cur : used = false \/ t <> None -> exists N, nexts (clog s) = N ++ [t];
  m_rests : rests (clog s) = [];
  m_layers : layersOk s;
  m_flow : noFail (clog s) -> flowI s;
  m_replay : pLost s = false -> replays (bareS (pStack s)) (if used then pTokens s else t :: pTokens s) (pApplied s);
  m_nf : noNF (clog s);
  m_lost : gMultiRules g = [] -> pLost s = false
}.
Record QS (t0 : Tok) (s : pstate) : Prop := mkQS {
  q_tree : okPrefix c t0 (nodeEvents (clog s));
  q_kept : prefix (nexts (clog s)) (kept (clog s));
  q_rests : rests (clog s) = [];
  q_nf : nfLast (clog s)
}.

Lemma HInv_prefix t0 (G0 : Prop) U s : HInv c t0 G0 U s -> okPrefix c t0 (nodeEvents (clog s)).
Proof.
  intros [(fs & I)|(T & C)].
  - rewrite (i_events _ _ _ _ _ _ I). eapply open_prefix; [apply I|apply I|apply prefix_refl].
  - exists T. destruct C. split; auto. split; auto. rewrite cl_events. apply prefix_refl.
Qed.
Lemma quiet_QS t0 used t s s' : MI t0 used t s -> quiet s s' -> QS t0 s'.
Proof.
  intros M (l & HC & HA). destruct (m_tree _ _ _ _ M) as (U & HT & _). constructor.
  - rewrite HC, nodeEvents_app, (allS_nodeEvents l HA), app_nil_r. eapply HInv_prefix; eauto.
  - rewrite HC, kept_app, nexts_app, (allS_nexts l HA), app_nil_r, (m_kept _ _ _ _ M). apply prefix_app_l, prefix_app_l, prefix_refl.
  - rewrite HC, rests_app, (allS_rests l HA), (m_rests _ _ _ _ M). auto.
  - apply noNF_last. rewrite HC. apply noNF_app. split; [apply M|apply allS_noNF; auto].
Qed.
Lemma nodeStop_QS t0 s s' : prefix (nexts (clog s)) (kept (clog s)) -> rests (clog s) = [] -> noNF (clog s) -> nodeStop c t0 s s' -> QS t0 s'.
Proof.
  intros HP HR HN (l & e & HA & HC & HO). destruct (allN_kept l HA) as (A1 & A2 & A3 & A4). constructor.
  - rewrite HC, !nodeEvents_app, (nodeEvents_allN l HA). cbn. rewrite app_nil_r. auto.
  - rewrite HC, app_assoc, kept_app, nexts_app. rewrite kept_app, nexts_app, A1, A2. cbn. rewrite !app_nil_r. exact HP.
  - rewrite HC, !rests_app, A3, HR. auto.
  - rewrite HC, app_assoc. apply nfLast_snoc. apply noNF_app. split; auto. apply allN_noNF. auto.
Qed.

(** invariants of the tree do not depend on the rest of the state *)
Lemma HInv_str t0 (G1 G2 : Prop) U s s' : (G2 -> G1) -> pStack s' = pStack s -> pLast s' = pLast s -> nodeEvents (clog s') = nodeEvents (clog s) -> HInv c t0 G1 U s -> HInv c t0 G2 U s'.
Proof.
  intros HG ES EL HC [(fs & I)|(T & C)].
  - left. exists fs. destruct I. constructor; try rewrite ES; auto. rewrite HC. auto.
  - right. exists T. destruct C. constructor; auto.
    + rewrite ES; auto.
    + rewrite HC. auto.
    + rewrite EL. auto.
Qed.
Lemma quiet_nodes s s' : quiet s s' -> nodeEvents (clog s') = nodeEvents (clog s) /\ nexts (clog s') = nexts (clog s) /\ rests (clog s') = rests (clog s) /\ (noNF (clog s) -> noNF (clog s')).
Proof.
  intros (l & HC & HA). rewrite HC, nodeEvents_app, nexts_app, rests_app, (allS_nodeEvents l HA), (allS_nexts l HA), (allS_rests l HA), !app_nil_r.
  repeat split; auto. intros H. apply noNF_app. split; auto. apply allS_noNF. auto.
Qed.

Lemma nextToken_tokens fuel types s : match nextToken c fuel types s with Done t s' => pTokens s = t :: pTokens s' \/ pTokens s = [] | _ => True end.
Proof. unfold nextToken. destruct (pTokens s); [|left; reflexivity]. destruct (nextLoop c fuel types s); auto. Qed.

(** One step: another token *)
Lemma MI_next t0 t s u s1 f types t2 s2 : MI t0 true t s -> checkCtx c s = Done u s1 -> nextToken c f types s1 = Done t2 s2 ->
  MI t0 false t2 (log (EvNext t2) s2).
Proof.
  intros M EC ET. pose proof (checkCtx_ok c s) as HC. rewrite EC in HC. cbn [post] in HC. destruct HC as [HC HQ].
    assert (L1 : layersOk s1) by (unfold ParserStream.layersOk in *; rewrite HQ; apply M).
    pose proof (nextToken_tokens f types s1) as TK.
    pose proof (nextToken_ok c f types s1 L1) as HN. rewrite ET in TK, HN. cbn [post] in HN.
    pose proof (quiet_trans _ _ _ (str_quiet _ _ _ HC) (taken_quiet _ _ _ HN)) as QT.
    destruct (quiet_nodes _ _ QT) as (QN & NE & QR & QF).
    pose proof HC as [C1 C2 C3 C4 C5 C6 C7 C8]. pose proof HN as [N1 N2 N3 N4 N5 (l & N6 & N7 & N8) N9]. destruct M.
    assert (KE : kept (clog s2) = nexts (clog s) ++ [t2] ++ pTokens s2).
    { apply N9. rewrite C7, kept_app, m_kept0, C1. cbn. rewrite app_nil_r. auto. }
    constructor; try rewrite clog_log.
    + destruct m_tree0 as (U & HT & HU). exists U. split.
      * apply (HInv_str t0 (G s) _ U s); auto.
        -- unfold G. cbn. rewrite N4, C5. auto.
        -- cbn. congruence.
        -- cbn. congruence.
        -- rewrite clog_log, nodeEvents_app, QN. cbn. apply app_nil_r.
      * rewrite nexts_app, somes_app, NE, HU, app_nil_r. f_equal. cbn. destruct t2; auto.
    + rewrite kept_app, nexts_app, KE, NE. cbn. rewrite app_nil_r, <- app_assoc. auto.
    + intros _. exists (nexts (clog s)). rewrite nexts_app, NE. auto.
    + rewrite rests_app, QR, m_rests0. auto.
    + exact N5.
    + intros HF. apply noFail_app in HF as [HF _]. pose proof HF as HF2. rewrite N6 in HF2. apply noFail_app in HF2 as [HF2 HFl].
      assert (HF0 : noFail (clog s)) by (rewrite C7 in HF2; apply noFail_app in HF2; tauto).
      pose proof (flowI_step s [EvCheck] s1 (m_flow0 HF0) C7 (flows_none _ _ [EvCheck] _ HQ (fun k => conj eq_refl eq_refl))) as F1.
      pose proof (flowI_step s1 l s2 F1 N6 (proj2 (N8 HF2))) as F2.
      exact (flowI_step s2 [EvNext t2] (log (EvNext t2) s2) F2 eq_refl (flows_none _ _ [EvNext t2] (log (EvNext t2) s2) eq_refl (fun k => conj eq_refl eq_refl))).
    + cbn [pLost log pTokens pStack pApplied]. rewrite N4, C5, N3, C4, N1, C2. intros PL. specialize (m_replay0 PL).
      rewrite <- C1 in m_replay0. destruct TK as [TK|TK]; rewrite TK in m_replay0; [exact m_replay0|].
      destruct m_replay0 as (ls & rest & E1 & HR). rewrite E1. exists ls, rest. split; auto. apply (canReplay_ext _ _ _ (t2 :: pTokens s2)) in HR. exact HR.
    + apply noNF_app. split; [auto|reflexivity].
    + cbn. rewrite N4, C5. auto.
Qed.
(** One step: a rule *)
Lemma MI_rule t0 t s n ns st f r s1 cons s2 : MI t0 false t s -> pStack s = n :: ns -> zget (gStates g) (nState n) = Some st ->
  nextRule c f t st s = Done (Some r) s1 -> applyRule c t r s1 = Done cons s2 ->
  MI t0 cons t s2 /\ nodeStep s1 s2 /\ (pLost s1 = false -> tablesOk g -> fits c (nState n) t r) /\
  dryRule c t r (bareS (pStack s)) = Some (cons, bareS (pStack s2)).
Proof.
  intros M EN ES E1 E2.
    destruct (m_cur _ _ _ _ M (or_introl eq_refl)) as (N & HN).
    assert (HK : kept (clog s) = N ++ [t] ++ pTokens s) by (rewrite (m_kept _ _ _ _ M), HN, <- app_assoc; auto).
    pose proof (nextRule_ok N f t st s n ns (m_layers _ _ _ _ M) HK EN ES) as H.
    specialize (H (m_replay _ _ _ _ M)). rewrite E1 in H. cbn [post] in H.
    destruct H as (H1 & H2 & H3 & (l & H4 & H5 & H6) & H7 & H8 & HLo & H9).
    assert (Q1 : quiet s s1) by (exists l; auto). destruct (quiet_nodes _ _ Q1) as (QN & NE & QR & QF).
      destruct (m_tree _ _ _ _ M) as (U & HT & HU).
      assert (HT1 : HInv c t0 (G s1) U s1).
      { apply (HInv_str t0 (G s) (G s1) U s); auto. unfold G. tauto. }
      destruct HT1 as [(fs & HT1)|(T & C1)]; [|exfalso; pose proof (cl_stack _ _ _ _ _ _ C1); congruence].
      assert (EN1 : pStack s1 = n :: ns) by congruence.
      pose proof (applyRule_ok c t0 (G s1) (G s1) fs U s1 t r n ns HT1 EN1) as HA.
      specialize (HA (fun gs => conj gs (proj1 (H9 (proj1 gs)) (proj2 gs)))). rewrite E2 in HA. cbn [post] in HA.
      destruct HA as ([A1 A2 A3 A4 (m & A5 & A6)] & HT2 & HD). split; [|split; [constructor; eauto|split; [intros PL TO; exact (proj1 (H9 PL) TO)|rewrite <- H2; exact HD]]].
      destruct (allN_kept m A5) as (K1 & K2 & K3 & K4).
      constructor.
      * exists (U ++ if cons then optTok t else []). split.
        -- unfold G. rewrite A4. exact HT2.
        -- rewrite A6, nexts_app, K2, app_nil_r, NE, HU. destruct cons; rewrite ?app_nil_r; auto.
      * rewrite A6, kept_app, nexts_app, K1, K2, !app_nil_r, NE, H7, HN, A1, <- app_assoc. auto.
      * intros _. exists N. rewrite A6, nexts_app, K2, app_nil_r, NE. auto.
      * rewrite A6, rests_app, K3, QR, (m_rests _ _ _ _ M). auto.
      * unfold ParserStream.layersOk in *. rewrite A2. auto.
      * intros HF. assert (HF1 : noFail (clog s1)) by (rewrite A6 in HF; apply noFail_app in HF; tauto).
        assert (HF0 : noFail (clog s)) by (rewrite H4 in HF1; apply noFail_app in HF1; tauto).
        eapply flowI_step; [|exact A6|apply flows_none; auto]. eapply flowI_step; [apply M; auto|exact H4|auto].
      * rewrite A4, A1, A3. intros PL. exact (proj2 (H9 PL) _ _ HD).
      * rewrite A6. apply noNF_app. split; [apply QF; apply M|]. apply allN_noNF. auto.
      * intros NM. rewrite A4, HLo; auto. apply M. auto.
Qed.

Lemma parseLoop_ok t0 : forall fuel used t s, MI t0 used t s ->
  post (parseLoop c fuel used t s) (fun x s' => pStack s' = [] /\ MI t0 (fst x) (snd x) s') (QS t0).
Proof.
  induction fuel as [|f IH]; intros used t s M; cbn [parseLoop]; [exact (quiet_QS _ _ _ _ _ M (quiet_refl s))|].
  destruct (pStack s) as [|n ns] eqn:EN; [split; auto|]. destruct used.
  - (* another token *)
    pose proof (checkCtx_ok c s) as HC. destruct (checkCtx c s) as [u s1|e s1| |s1] eqn:EC; cbn [bind post] in *; auto;
      try (destruct HC as (e' & HC); exact (quiet_QS _ _ _ _ _ M (str_quiet _ _ _ HC))).
    destruct HC as [HC HQ].
    assert (L1 : layersOk s1) by (unfold ParserStream.layersOk in *; rewrite HQ; apply M).
    pose proof (nextToken_tokens f (nTypes n) s1) as TK.
    pose proof (nextToken_ok c f (nTypes n) s1 L1) as HN. destruct (nextToken c f (nTypes n) s1) as [t2 s2|e s2| |s2] eqn:ENT; cbn [bind post] in *; auto;
      try (destruct HN as [(l & HN & _) _]; exact (quiet_QS _ _ _ _ _ M (quiet_trans _ _ _ (str_quiet _ _ _ HC) (str_quiet _ _ _ HN)))).
    apply IH. eapply MI_next; eauto.
  - (* a rule *)
    destruct (zget (gStates g) (nState n)) as [st|] eqn:ES; [|exact I].
    destruct (m_cur _ _ _ _ M (or_introl eq_refl)) as (N & HN).
    assert (HK : kept (clog s) = N ++ [t] ++ pTokens s) by (rewrite (m_kept _ _ _ _ M), HN, <- app_assoc; auto).
    pose proof (nextRule_ok N f t st s n ns (m_layers _ _ _ _ M) HK EN ES) as H.
    specialize (H (m_replay _ _ _ _ M)).
    destruct (nextRule c f t st s) as [ro s1|e s1| |s1] eqn:ENR; cbn [bind post] in *; auto; try (exact (quiet_QS _ _ _ _ _ M H)).
    destruct H as (H1 & H2 & H3 & (l & H4 & H5 & H6) & H7 & H8 & HLo & H9).
    assert (Q1 : quiet s s1) by (exists l; auto). destruct (quiet_nodes _ _ Q1) as (QN & NE & QR & QF).
    destruct ro as [r|].
    + destruct (m_tree _ _ _ _ M) as (U & HT & HU).
      assert (HT1 : HInv c t0 (G s1) U s1).
      { apply (HInv_str t0 (G s) (G s1) U s); auto. unfold G. tauto. }
      destruct HT1 as [(fs & HT1)|(T & C1)]; [|exfalso; pose proof (cl_stack _ _ _ _ _ _ C1); congruence].
      assert (EN1 : pStack s1 = n :: ns) by congruence.
      pose proof (applyRule_ok c t0 (G s1) (G s1) fs U s1 t r n ns HT1 EN1) as HA.
      specialize (HA (fun gs => conj gs (proj1 (H9 (proj1 gs)) (proj2 gs)))).
      destruct (applyRule c t r s1) as [cons s2|e s2| |s2] eqn:EAR; cbn [bind post] in *; auto.
      2,3: apply (nodeStop_QS t0 s1); auto; [rewrite NE, H7, HN, app_assoc; apply prefix_app_l, prefix_refl|rewrite QR; apply M|apply QF; apply M].
      apply IH. eapply MI_rule; eauto.
    + destruct H9 as [-> _]. unfold syntaxError.
      assert (HS : post (match t with Some _ => Done t s | None => nextToken c f AllTokenTypes s end) (fun _ s' => quiet s s') (quiet s)).
      { destruct t; [apply quiet_refl|]. eapply post_weak; [apply nextToken_ok; apply M| |].
        - intros a s2 HT. eapply taken_quiet; eauto.
        - intros s2 [(l2 & HS & _) _]. eapply str_quiet; eauto. }
      destruct (match t with Some _ => Done t s | None => nextToken c f AllTokenTypes s end) as [t2 s2|e s2| |s2]; cbn [bind post] in *; auto;
        try (exact (quiet_QS _ _ _ _ _ M HS)).
      destruct (getExpectedToken c st); [|exact I]. destruct t2; [|exact I]. exact (quiet_QS _ _ _ _ _ M HS).
Qed.

(** ** After the root node *)
Record RI (t0 : Tok) (T : tree) (left : list Tok) (s : pstate) : Prop := mkRI {
  r_closed : exists U, Closed c t0 (G s) T U s /\ somes (nexts (clog s)) = U ++ left;
  r_kept : kept (clog s) = nexts (clog s) ++ map Some (rests (clog s)) ++ pTokens s;
  r_layers : layersOk s;
  r_flow : noFail (clog s) -> flowI s;
  r_nf : noNF (clog s);
  r_lost : gMultiRules g = [] -> pLost s = false
}.
Lemma Closed_str t0 (G1 G2 : Prop) T U s s' : (G2 -> G1) -> pStack s' = pStack s -> pLast s' = pLast s -> nodeEvents (clog s') = nodeEvents (clog s) -> Closed c t0 G1 T U s -> Closed c t0 G2 T U s'.
Proof.
  intros HG ES EL HC C. destruct C. constructor; auto.
  - rewrite ES; auto.
  - rewrite HC. auto.
  - rewrite EL. auto.
Qed.
Definition sideT (t : Tok) : Prop := isSideType g (cType c t) = true.

Lemma restLoop_ok t0 T left : forall fuel s, RI t0 T left s ->
  post (restLoop c fuel s)
    (fun _ s' => RI t0 T left s' /\ nexts (clog s') = nexts (clog s) /\
       exists ss e, rests (clog s') = rests (clog s) ++ ss ++ [e] /\ Forall sideT ss /\ cType c e = EoiTokenType)
    (fun s' => okPrefix c t0 (nodeEvents (clog s')) /\ noNF (clog s')).
Proof.
  induction fuel as [|f IH]; intros s RI0; cbn [restLoop].
  { destruct RI0. destruct r_closed0 as (U & HC & _). split; auto. apply (HInv_prefix t0 (G s) U). right. eauto. }
  pose proof (nextToken_ok c f AllTokenTypes s (r_layers _ _ _ _ RI0)) as HN.
  destruct (nextToken c f AllTokenTypes s) as [t s1|e s1| |s1]; cbn [bind post] in *; auto.
  2,3: destruct HN as [(l & HN & _) _]; destruct (quiet_nodes _ _ (str_quiet _ _ _ HN)) as (QN & NE & QR & QF); destruct RI0 as [(U & HC & _) _ _ _ NF _];
       split; auto; rewrite QN; apply (HInv_prefix t0 (G s) U); right; eauto.
  destruct t as [t|]; [|exact I].
  destruct (quiet_nodes _ _ (taken_quiet _ _ _ HN)) as (QN & NE & QR & QF).
  pose proof HN as [N1 N2 N3 N4 N5 (l & N6 & N7 & N8) N9].
  assert (R1 : RI t0 T left (log (EvRest t) s1)).
  { destruct RI0 as [(U & HC & HU) HK HL HF NF HLs]. constructor; try rewrite clog_log.
    - exists U. split.
      + apply (Closed_str t0 (G s) _ T U s); auto.
        * unfold G. cbn. rewrite N4. auto.
        * rewrite clog_log, nodeEvents_app, QN. cbn. apply app_nil_r.
      + rewrite nexts_app, NE. cbn. rewrite app_nil_r. auto.
    - rewrite app_assoc in HK. rewrite kept_app, nexts_app, rests_app, (N9 _ HK), NE, QR, map_app. cbn. rewrite !app_nil_r, <- !app_assoc. auto.
    - exact N5.
    - intros HF1. apply noFail_app in HF1 as [HF1 _]. assert (HF0 : noFail (clog s)) by (rewrite N6 in HF1; apply noFail_app in HF1; tauto).
      pose proof (flowI_step s l s1 (HF HF0) N6 (proj2 (N8 HF0))) as F2.
      exact (flowI_step s1 [EvRest t] (log (EvRest t) s1) F2 eq_refl (flows_none _ _ [EvRest t] (log (EvRest t) s1) eq_refl (fun k => conj eq_refl eq_refl))).
    - apply noNF_app. split; [auto|reflexivity].
    - cbn. rewrite N4. auto. }
  assert (EX : nexts (clog (log (EvRest t) s1)) = nexts (clog s) /\ rests (clog (log (EvRest t) s1)) = rests (clog s) ++ [t]).
  { rewrite clog_log, nexts_app, rests_app, NE, QR. cbn. rewrite app_nil_r. auto. }
  destruct EX as [EX1 EX2].
  destruct (Z.eqb_spec (cType c t) EoiTokenType) as [HE|HE].
  - cbn [post]. split; auto. split; auto. exists [], t. split; auto.
  - destruct (isSideType g (cType c t)) eqn:SD.
    + eapply post_weak; [apply IH; exact R1| |auto]. intros _ s2 (B1 & B2 & ss & e & B3 & B4 & B5). split; auto. split; [congruence|].
      exists (t :: ss), e. split; [rewrite B3, EX2, <- app_assoc; auto|]. split; auto.
    + cbn [post]. destruct R1 as [(U & HC & _) _ _ _ NF _]. split; auto. apply (HInv_prefix t0 (G (log (EvRest t) s1)) U). right. eauto.
Qed.

Record stoppedAt (t0 : Tok) (s : pstate) : Prop := mkStopped {
  st_tree : okPrefix c t0 (nodeEvents (clog s));
  st_nf : nfLast (clog s)
}.
Record finished (t0 : Tok) (r : option R) (T : tree) (s : pstate) : Prop := mkFin {
  f_ok : treeOk T;
  f_root : isRoot t0 T;
  f_events : nodeEvents (clog s) = trace [] T;
  f_result : match T with Node _ _ (Some i :: _) (x :: _) _ => cWatchNodes c = true -> r = x | _ => True end;
  f_leaves : exists unused, (length unused <= 1)%nat /\ somes (nexts (clog s)) = leaves T ++ unused;
  f_kept : kept (clog s) = nexts (clog s) ++ map Some (rests (clog s)) ++ pTokens s;
  f_derived : pLost s = false -> tablesOk g -> derived RootNode T;
  f_flow : noFail (clog s) -> flowI s;
  f_full : cFullSource c = true ->
    (exists N e, nexts (clog s) = N ++ [Some e] /\ cType c e = EoiTokenType /\ rests (clog s) = []) \/
    (exists ss e, rests (clog s) = ss ++ [e] /\ Forall sideT ss /\ cType c e = EoiTokenType);
  f_rests : cFullSource c = false -> rests (clog s) = [];
  f_lost : gMultiRules g = [] -> pLost s = false
}.

Lemma MI_start w t0 u s : start c w t0 = Done u s -> MI t0 true None s.
Proof.
  unfold start. set (s0 := mkP w [] (repeat [] (length (cTokenHooks c))) [] None [] [] false). intros ES.
  pose proof (pushNode_ok c t0 (G s0) (G s0) [] [] s0 RootNode (Some t0)) as HP.
  specialize (HP (conj eq_refl (conj eq_refl (conj eq_refl (conj eq_refl eq_refl))))). rewrite ES in HP. cbn [post] in HP.
  destruct HP as ([A1 A2 A3 A4 (m & A5 & A6)] & (fs & HI) & _). destruct (allN_kept m A5) as (K1 & K2 & K3 & K4).
  change (clog s0) with (@nil event) in A6. cbn [app] in A6. constructor; try rewrite A6.
    - exists []. split; [|rewrite K2; auto]. left. exists fs. unfold G. rewrite A4. exact HI.
    - rewrite K1, K2, A1. auto.
    - intros [X|X]; [discriminate|congruence].
    - auto.
    - unfold ParserStream.layersOk. rewrite A2. apply repeat_length.
    - intros _ k HK. rewrite A6. destruct (K4 k) as [P1 P2]. destruct (K4 (S k)) as [P3 _]. rewrite P1, P2, P3, A2. split; auto.
      cbn. apply nth_repeat.
    - intros _. rewrite A3. apply replays_nil.
    - apply allN_noNF. auto.
    - intros _. rewrite A4. auto.
Qed.
Lemma parseFrom_ok fuel w t0 :
  post (parseFrom c fuel w t0) (fun r s => exists T, finished t0 r T s) (stoppedAt t0).
Proof.
  unfold parseFrom, start. set (s0 := mkP w [] (repeat [] (length (cTokenHooks c))) [] None [] [] false).
  pose proof (pushNode_ok c t0 (G s0) (G s0) [] [] s0 RootNode (Some t0)) as HP.
  specialize (HP (conj eq_refl (conj eq_refl (conj eq_refl (conj eq_refl eq_refl))))).
  destruct (pushNode c RootNode (Some t0) s0) as [u s|e s| |s] eqn:EP; cbn [bind post] in *; auto.
  2,3: destruct (nodeStop_QS t0 s0 s) as [A1 A2 A3 A4]; auto; [apply prefix_refl|reflexivity|split; auto].
  destruct HP as ([A1 A2 A3 A4 (m & A5 & A6)] & (fs & HI) & _). destruct (allN_kept m A5) as (K1 & K2 & K3 & K4).
  pose proof (MI_start w t0 u s EP) as M.
  pose proof (parseLoop_ok t0 fuel true None s M) as HL. unfold parse.
  destruct (parseLoop c fuel true None s) as [[used t] s1|e s1| |s1]; cbn [bind post] in *; auto.
  2,3: destruct HL; split; auto.
  destruct HL as [ES M1]. cbn [fst snd] in *.
  destruct (if used then Some s1 else _) as [s2|] eqn:E2; [|exact I].
  assert (S2 : clog s2 = clog s1 /\ pStack s2 = pStack s1 /\ pLast s2 = pLast s1 /\ pQueues s2 = pQueues s1 /\ pTokens s2 = pTokens s1 /\ pLost s2 = pLost s1).
  { destruct used; [injection E2 as <-; auto 6|]. destruct t as [t|]; [|discriminate]. injection E2 as <-. destruct (_ =? _); auto 6. }
  destruct S2 as (S2a & S2b & S2c & S2d & S2e & S2f). destruct M1 as [(U & HT & HU) HK HC HR HLy HF HRp HNF HLs].
  destruct HT as [(fs1 & I1)|(T & C1)].
  { exfalso. pose proof (i_match _ _ _ _ _ _ I1) as X. rewrite ES in X. inversion X; subst. exact (i_rooted _ _ _ _ _ _ I1). }
  assert (R2 : RI t0 T (if used then [] else optTok t) s2).
  { constructor; try rewrite S2a; auto.
    - exists U. split; auto. apply (Closed_str t0 (G s1) _ T U s1); auto; [unfold G; rewrite S2f; auto|rewrite S2a; auto].
    - rewrite HR, HK, S2e. auto.
    - unfold ParserStream.layersOk. rewrite S2d. auto.
    - intros X k HKk. rewrite S2a, S2d. apply HF; auto.
    - rewrite S2f. auto. }
  assert (LEFT : (length (if used then [] else optTok t) <= 1)%nat) by (destruct used; [cbn; lia|]; destruct t; cbn; lia).
  assert (FIN : forall s3, RI t0 T (if used then [] else optTok t) s3 ->
    (cFullSource c = true ->
      (exists N e, nexts (clog s3) = N ++ [Some e] /\ cType c e = EoiTokenType /\ rests (clog s3) = []) \/
      (exists ss e, rests (clog s3) = ss ++ [e] /\ Forall sideT ss /\ cType c e = EoiTokenType)) ->
    (cFullSource c = false -> rests (clog s3) = []) -> finished t0 (pLast s3) T s3).
  { intros s3 [(U3 & [] & HU3) B2 B3 B4 B5 B6] HFull HNo. constructor; auto.
    - exists (if used then [] else optTok t). split; auto. rewrite HU3. f_equal. auto.
    - intros PL TO. apply cl_derived. split; auto. }
  destruct (cFullSource c) eqn:EF; cbn [andb].
  - destruct (match t with None => true | Some t => negb (cType c t =? EoiTokenType) end) eqn:EE.
    + pose proof (restLoop_ok t0 T _ fuel s2 R2) as H. destruct (restLoop c fuel s2) as [u' s3|e s3| |s3]; cbn [bind post] in *; auto.
      * destruct H as (B1 & B2 & ss & e & B3 & B4 & B5). exists T. apply FIN; auto; [|discriminate]. intros _. right. exists ss, e. split; auto.
        rewrite B3, S2a, HR. auto.
      * destruct H. split; auto. apply noNF_last. auto.
      * destruct H. split; auto. apply noNF_last. auto.
    + cbn [bind post]. exists T. apply FIN; auto; [|discriminate]. intros _. left. destruct t as [t|]; [|discriminate].
      apply negb_false_iff, Z.eqb_eq in EE. destruct HC as (N & HC); [right; discriminate|]. exists N, t. rewrite S2a. auto.
  - cbn [bind post]. exists T. apply FIN; auto; [discriminate|]. intros _. rewrite S2a. auto.
Qed.
End P.
