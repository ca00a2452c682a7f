(** Invariants of the parsing process: steps of the parser and the tree being built. *)
From Coq Require Import ZArith List Bool Lia.
From Verif Require Import Base BaseProofs Grammar Rules RulesSpec Prop_Rules Parser ParserSpec ParserProofs.
Import ListNotations.
Open Scope Z_scope.

Section P.
Context {Tok Src W E Inst R : Type}.
Variable c : config Tok Src W E Inst R.
Notation g := (cGrammar c).
Notation pstate := (pstate Tok Src W E Inst R).
Notation event := (event Tok E Inst R).
Notation res := (res Tok Src W E Inst R).
Notation tree := (tree Tok Inst R).
Notation nodeRec := (nodeRec Tok Inst).
Notation hooked := (hookedIn (cNodeHooks c)).
Notation trace := (trace (Tok:=Tok) (E:=E) (Inst:=Inst) (R:=R) hooked).
Notation traceL := (traceL (Tok:=Tok) (E:=E) (Inst:=Inst) (R:=R) hooked).
Notation treeOk := (treeOk (Tok:=Tok) (R:=R) hooked).
Notation instOk := (instOk (Inst:=Inst) hooked).
Notation run := (run (Inst:=Inst) (R:=R) (cType c) (cText c) (cUpper c) g).
Notation derived := (derived (Inst:=Inst) (R:=R) (cType c) (cText c) (cUpper c) g).
Notation ruleOf := (ruleOf g).
Notation tokenMatches := (tokenMatches (cType c) (cText c) (cUpper c) g).
Notation isSide := (isSide (cType c) g).

(** ** Trees *)
Lemma trace_Node up node t0 hooks results kids :
  trace up (Node node t0 hooks results kids) =
  calls 0 (fun l i => EvNewNode l i node t0) up ++ creations 0 (hooked node) node t0 hooks ++ traceL hooks kids
  ++ callsR 0 (fun l i x => EvEnd l i x) hooks results ++ callsR 0 (fun l i x => EvNode l i node x) up results.
Proof.
  cbn [ParserSpec.trace]. do 2 f_equal. f_equal.
  unfold ParserSpec.traceL. induction kids as [|k r IH]; cbn [map concat]; [|rewrite <- IH]; auto.
Qed.
Lemma leaves_Node node t0 (hooks : list (option Inst)) (results : list (option R)) kids : leaves (Node node t0 hooks results kids) = leavesL (Tok:=Tok) kids.
Proof. cbn [leaves]. unfold leavesL. induction kids as [|k r IH]; cbn [map concat]; [|rewrite <- IH]; auto. Qed.
Lemma treeOk_Node node t0 hooks results kids :
  treeOk (Node node t0 hooks results kids) <-> instOk node hooks /\ length results = length hooks /\ Forall treeOk kids.
Proof.
  cbn [ParserSpec.treeOk].
  assert (H : (fix go (l : list tree) : Prop := match l with [] => True | k :: r => treeOk k /\ go r end) kids <-> Forall treeOk kids).
  { induction kids as [|k r IH]; [split; auto|]. rewrite IH. split; [intros []; constructor; auto|].
    intros H. split; [exact (Forall_inv H)|exact (Forall_inv_tail H)]. }
  rewrite H. tauto.
Qed.
Lemma traceL_app up a b : traceL up (a ++ b) = traceL up a ++ traceL up b.
Proof. unfold ParserSpec.traceL. rewrite map_app, concat_app. auto. Qed.
Lemma leavesL_app (a b : list tree) : leavesL (a ++ b) = leavesL a ++ leavesL b.
Proof. unfold leavesL. rewrite map_app, concat_app. auto. Qed.
Lemma leavesL_Leaf ts : leavesL (map (@Leaf Tok Inst R) ts) = ts.
Proof. unfold leavesL. induction ts; cbn; congruence. Qed.
Lemma traceL1 up T : traceL up [T] = trace up T.
Proof. unfold ParserSpec.traceL. cbn. apply app_nil_r. Qed.

Definition allN (l : list event) : Prop := forallb isNodeEvent l = true.
Lemma allN_app a b : allN (a ++ b) <-> allN a /\ allN b.
Proof. unfold allN. rewrite forallb_app, andb_true_iff. tauto. Qed.
Lemma allN_prefix (p l : list event) : prefix p l -> allN l -> allN p.
Proof. intros (r & ->) H. apply allN_app in H. tauto. Qed.
Lemma nodeEvents_app (a b : list event) : nodeEvents (a ++ b) = nodeEvents a ++ nodeEvents b.
Proof. apply filter_app. Qed.
Lemma nodeEvents_allN l : allN l -> nodeEvents l = l.
Proof. apply filter_all. Qed.
Lemma calls_allN f hooks : (forall l i, isNodeEvent (f l i) = true) -> forall layer, allN (calls layer f hooks).
Proof.
  intros H. unfold allN. induction hooks as [|[i|] r IH]; intros layer; cbn; auto. rewrite H. cbn. auto.
Qed.
Lemma callsR_allN f hooks : (forall l i x, isNodeEvent (f l i x) = true) -> forall layer results, allN (callsR layer f hooks results).
Proof.
  intros H. unfold allN. induction hooks as [|[i|] r IH]; intros layer [|x xs]; cbn; auto. rewrite H. cbn. auto.
Qed.
Lemma creations_allN hk : forall layer node t0 hooks, allN (creations layer hk node t0 hooks).
Proof. unfold allN. induction hk as [|[|] r IH]; intros layer node t0 [|i is]; cbn; auto. Qed.
Lemma trace_allN : forall T up, allN (trace up T).
Proof.
  fix IH 1. intros [t|node t0 hooks results kids] up.
  - apply calls_allN. auto.
  - rewrite trace_Node, !allN_app. split; [apply calls_allN; auto|]. split; [apply creations_allN|]. split; [|split; apply callsR_allN; auto].
    induction kids as [|k r IHr]; [reflexivity|]. change (k :: r) with ([k] ++ r). rewrite traceL_app, allN_app, traceL1. auto.
Qed.
Lemma traceL_allN up l : allN (traceL up l).
Proof.
  induction l as [|k r IHr]; [reflexivity|]. change (k :: r) with ([k] ++ r). rewrite traceL_app, allN_app, traceL1. split; auto. apply trace_allN.
Qed.

(** ** Open trees *)
Record frame := mkF { fIdx : Z; fT0 : option Tok; fHooks : list (option Inst); fKids : list tree }.
Definition addKids (f : frame) ks := mkF (fIdx f) (fT0 f) (fHooks f) (fKids f ++ ks).
Definition upOf (fs : list frame) : list (option Inst) := match fs with [] => [] | f :: _ => fHooks f end.
Definition enter (up : list (option Inst)) node t0 hooks : list event :=
  calls 0 (fun l i => EvNewNode l i node t0) up ++ creations 0 (hooked node) node t0 hooks.
Fixpoint openTrace (fs : list frame) : list event :=
  match fs with
  | [] => []
  | f :: r => openTrace r ++ enter (upOf r) (fIdx f) (fT0 f) (fHooks f) ++ traceL (fHooks f) (fKids f)
  end.
Fixpoint openLeaves (fs : list frame) : list Tok :=
  match fs with [] => [] | f :: r => openLeaves r ++ leavesL (fKids f) end.
Definition frameOk (f : frame) : Prop := instOk (fIdx f) (fHooks f) /\ Forall treeOk (fKids f).
Definition isRoot (t0 : Tok) (T : tree) : Prop :=
  match T with Leaf _ => False | Node n t _ _ _ => n = RootNode /\ t = Some t0 end.
Fixpoint rooted (t0 : Tok) (fs : list frame) : Prop :=
  match fs with
  | [] => False
  | f :: r => match r with [] => fIdx f = RootNode /\ fT0 f = Some t0 | _ => rooted t0 r end
  end.
Definition okPrefix (t0 : Tok) (l : list event) : Prop := exists T, treeOk T /\ isRoot t0 T /\ prefix l (trace [] T).

Lemma close_ok t0 fs : forall T', Forall frameOk fs -> treeOk T' -> (fs = [] -> isRoot t0 T') -> (fs <> [] -> rooted t0 fs) ->
  okPrefix t0 (openTrace fs ++ trace (upOf fs) T').
Proof.
  induction fs as [|f r IH]; intros T' HF HT HR HR2.
  - exists T'. cbn. split; auto. split; auto. apply prefix_refl.
  - assert (F1 := Forall_inv HF). apply Forall_inv_tail in HF. destruct F1 as [FI FK].
    destruct (IH (Node (fIdx f) (fT0 f) (fHooks f) (repeat None (length (fHooks f))) (fKids f ++ [T']))) as (T & T1 & T2 & T3); auto.
    + apply treeOk_Node. split; auto. split; [apply repeat_length|]. apply Forall_app. auto.
    + intros ->. apply (HR2 ltac:(discriminate)).
    + intros NE. specialize (HR2 ltac:(discriminate)). cbn in HR2. destruct r; [congruence|auto].
    + exists T. split; auto. split; auto. eapply prefix_trans; [|exact T3].
      cbn [openTrace upOf]. rewrite trace_Node, traceL_app, traceL1. unfold enter.
      rewrite <- !app_assoc. apply prefix_app, prefix_app, prefix_app, prefix_app.
      eexists; reflexivity.
Qed.
Lemma close_prefix t0 fs T' p : Forall frameOk fs -> treeOk T' -> (fs = [] -> isRoot t0 T') -> (fs <> [] -> rooted t0 fs) ->
  prefix p (openTrace fs ++ trace (upOf fs) T') -> okPrefix t0 p.
Proof. intros A1 A2 A3 A4 HP. destruct (close_ok t0 fs T') as (T & T1 & T2 & T3); auto. exists T. split; auto. split; auto. eapply prefix_trans; eauto. Qed.
Lemma open_prefix t0 fs p : Forall frameOk fs -> rooted t0 fs -> prefix p (openTrace fs) -> okPrefix t0 p.
Proof.
  destruct fs as [|f r]; [intros _ []|]. intros HF HR HP.
  assert (F1 := Forall_inv HF). apply Forall_inv_tail in HF. destruct F1 as [FI FK].
  apply (close_prefix t0 r (Node (fIdx f) (fT0 f) (fHooks f) (repeat None (length (fHooks f))) (fKids f))); auto.
  - apply treeOk_Node. split; auto. split; [apply repeat_length|auto].
  - intros ->. exact HR.
  - intros NE. cbn in HR. destruct r; [congruence|auto].
  - eapply prefix_trans; [exact HP|]. cbn [openTrace]. rewrite trace_Node. unfold enter. rewrite <- !app_assoc.
    apply prefix_app, prefix_app, prefix_app. eexists. reflexivity.
Qed.

(** ** Invariant *)
Definition matchF (f : frame) (n : nodeRec) : Prop := nIndex n = fIdx f /\ nHooks n = fHooks f.
Definition topSides (st : list nodeRec) : list Tok := match st with [] => [] | n :: _ => nSides n end.
Definition runTop (f : frame) (j : Z) : Prop := exists nt, zget (gNodes g) (fIdx f) = Some nt /\ run (gnFirst nt) (fKids f) j.
Fixpoint runPend (child : Z) (fs : list frame) (st : list nodeRec) : Prop :=
  match fs, st with
  | [], [] => True
  | f :: fs', n :: st' =>
      (exists j r, runTop f j /\ ruleOf j r /\ rNode r = child /\ child <> SameNode /\ nState n = rState r) /\ runPend (fIdx f) fs' st'
  | _, _ => False
  end.
Definition runsOk (fs : list frame) (st : list nodeRec) : Prop :=
  match fs, st with
  | f :: fs', n :: st' => runTop f (nState n) /\ runPend (fIdx f) fs' st'
  | _, _ => False
  end.

Record Inv (t0 : Tok) (G : Prop) (fs : list frame) (used : list Tok) (s : pstate) : Prop := mkInv {
  i_match : Forall2 matchF fs (pStack s);
  i_ok : Forall frameOk fs;
  i_rooted : rooted t0 fs;
  i_events : nodeEvents (clog s) = openTrace fs;
  i_leaves : openLeaves fs ++ topSides (pStack s) = used;
  i_tail : Forall (fun n => nSides n = []) (tl (pStack s));
  i_side : Forall (fun t => isSide (Some t)) (topSides (pStack s));
  i_runs : G -> runsOk fs (pStack s)
}.
Record Closed (t0 : Tok) (G : Prop) (T : tree) (used : list Tok) (s : pstate) : Prop := mkClosed {
  cl_stack : pStack s = [];
  cl_ok : treeOk T;
  cl_root : isRoot t0 T;
  cl_events : nodeEvents (clog s) = trace [] T;
  cl_leaves : leaves T = used;
  cl_derived : G -> derived RootNode T;
  cl_result : match T with Node _ _ (Some i :: _) (x :: _) _ => cWatchNodes c = true -> pLast s = x | _ => True end
}.
Definition HInv t0 G used s : Prop := (exists fs, Inv t0 G fs used s) \/ (exists T, Closed t0 G T used s).

(** steps that call node hooks only *)
Record nodeStep (s s' : pstate) : Prop := mkNS {
  ns_tokens : pTokens s' = pTokens s; ns_queues : pQueues s' = pQueues s; ns_applied : pApplied s' = pApplied s;
  ns_lost : pLost s' = pLost s; ns_log : exists l, allN l /\ clog s' = clog s ++ l }.
Definition nodeStop (t0 : Tok) (s s' : pstate) : Prop :=
  exists l e, allN l /\ clog s' = clog s ++ l ++ [EvNodeFail e] /\ okPrefix t0 (nodeEvents (clog s) ++ l).
Lemma ns_refl s : nodeStep s s. Proof. constructor; auto. exists []. split; [reflexivity|]. rewrite app_nil_r. auto. Qed.
Lemma ns_trans s1 s2 s3 : nodeStep s1 s2 -> nodeStep s2 s3 -> nodeStep s1 s3.
Proof.
  intros [A1 A2 A3 A4 (l & L1 & L2)] [B1 B2 B3 B4 (m & M1 & M2)]. constructor; try congruence.
  exists (l ++ m). split; [apply allN_app; auto|]. rewrite M2, L2, app_assoc. auto.
Qed.
Lemma ns_stop t0 s1 s2 s3 : nodeStep s1 s2 -> nodeStop t0 s2 s3 -> nodeStop t0 s1 s3.
Proof.
  intros [A1 A2 A3 A4 (l & L1 & L2)] (m & e & M1 & M2 & M3). exists (l ++ m), e. split; [apply allN_app; auto|].
  split; [rewrite M2, L2, <- !app_assoc; auto|]. rewrite L2, nodeEvents_app, (nodeEvents_allN l L1), <- app_assoc in M3. auto.
Qed.
Lemma added_ns s l s' : added s l s' -> allN l -> nodeStep s s' /\ pStack s' = pStack s /\ nodeEvents (clog s') = nodeEvents (clog s) ++ l.
Proof.
  intros [[] HC] HL. split; [constructor; auto; exists l; auto|]. split; auto.
  rewrite HC, nodeEvents_app, (nodeEvents_allN l HL). auto.
Qed.
Lemma stopped_ns t0 s (L : list event -> Prop) s' : stopped s L s' -> (forall p, L p -> allN p /\ okPrefix t0 (nodeEvents (clog s) ++ p)) -> nodeStop t0 s s'.
Proof. intros (p & e & HL & HC) H. destruct (H p HL). exists p, e. auto. Qed.

(** runs *)
Lemma run_sides i ks j ts : run i ks j -> Forall (fun t => isSide (Some t)) ts -> run i (ks ++ map Leaf ts) j.
Proof.
  intros HR HS. revert ks HR. induction ts as [|t ts IH]; intros ks HR; cbn [map]; [rewrite app_nil_r; auto|].
  change (Leaf t :: map Leaf ts) with ([Leaf t] ++ map (@Leaf Tok Inst R) ts). rewrite app_assoc.
  apply IH; [exact (Forall_inv_tail HS)|]. apply R_side; auto. exact (Forall_inv HS).
Qed.
Lemma runTop_sides f j ts : runTop f j -> Forall (fun t => isSide (Some t)) ts -> runTop (addKids f (map Leaf ts)) j.
Proof. intros (nt & E1 & H) HS. exists nt. split; auto. apply run_sides; auto. Qed.

Lemma openTrace_add f r ks : openTrace (addKids f ks :: r) = openTrace (f :: r) ++ traceL (fHooks f) ks.
Proof. cbn [openTrace addKids fIdx fT0 fHooks fKids]. rewrite traceL_app, !app_assoc. auto. Qed.
Lemma frameOk_add f ks : frameOk f -> Forall treeOk ks -> frameOk (addKids f ks).
Proof. intros [A B] C. split; auto. cbn. apply Forall_app. auto. Qed.
Lemma rooted_add t0 f ks r : rooted t0 (f :: r) -> rooted t0 (addKids f ks :: r).
Proof. destruct r; auto. Qed.
Lemma leafOk ts : Forall treeOk (map (@Leaf Tok Inst R) ts).
Proof. induction ts; cbn; constructor; auto. exact I. Qed.

Lemma isSideToken_spec (t : option Tok) : isSideToken (cType c) g t = true <-> isSide t.
Proof.
  destruct t as [t|]; cbn [isSideToken]; [|split; [discriminate|intros (? & ? & _); discriminate]].
  rewrite isSideType_spec. split; [exists t; auto|]. intros (t' & E1 & H). injection E1 as <-. auto.
Qed.

(** What [Inv] says of a state with a given top *)
Lemma inv_cons t0 G fs used s n st : Inv t0 G fs used s -> pStack s = n :: st -> exists f r, fs = f :: r /\ matchF f n /\ Forall2 matchF r st.
Proof. intros I E1. pose proof (i_match _ _ _ _ _ I) as H. rewrite E1 in H. inversion H; subst. eauto. Qed.

Lemma handleNodeSides_ok t0 G fs used s : Inv t0 G fs used s -> pStack s <> [] ->
  post (handleNodeSides c s)
    (fun _ s' => nodeStep s s' /\ pStack s' = match pStack s with n :: st => setNSides n [] :: st | [] => [] end /\
       exists f r, fs = f :: r /\ Inv t0 G (addKids f (map Leaf (topSides (pStack s))) :: r) used s')
    (nodeStop t0 s).
Proof.
  intros I NE. unfold handleNodeSides. destruct (pStack s) as [|n st] eqn:ES; [congruence|]. clear NE.
  destruct (inv_cons _ _ _ _ _ _ _ I ES) as (f & r & -> & HM & HM2). destruct HM as [HX HH].
  pose proof (handleTokenList_ok c (nHooks n) (nSides n) s) as H.
  destruct (handleTokenList c (nHooks n) (nSides n) s) as [u s1|e s1| |s1]; cbn [bind post] in *; auto.
  - destruct H as [H _]. destruct (added_ns _ _ _ H (traceL_allN _ _)) as (NS & ST & EV).
    split; [|split].
    + destruct NS. constructor; auto.
    + cbn [setTop setStack pStack]. rewrite ST, ES. auto.
    + exists f, r. split; auto. destruct I as [A1 A2 A3 A4 A5 A6 A7 A8]. rewrite ES in *. cbn [topSides tl] in *.
      constructor; cbn [setTop setStack pStack topSides setNSides nSides]; rewrite ?ST, ?ES; cbn [tl].
      * constructor; auto. split; auto.
      * constructor; [|exact (Forall_inv_tail A2)]. apply frameOk_add; [exact (Forall_inv A2)|apply leafOk].
      * apply rooted_add. auto.
      * change (clog (setTop s1 (setNSides n []))) with (clog s1). rewrite EV, A4, openTrace_add. f_equal. f_equal. auto.
      * cbn [openLeaves addKids fKids]. rewrite leavesL_app, leavesL_Leaf, app_nil_r, app_assoc. auto.
      * auto.
      * constructor.
      * intros HG. destruct (A8 HG) as [B1 B2]. split; auto. cbn [nState setNSides]. apply runTop_sides; auto.
  - destruct I as [A1 A2 A3 A4 A5 A6 A7 A8].
    eapply stopped_ns; [exact H|]. intros p HP. split; [eapply allN_prefix; [exact HP|apply traceL_allN]|].
    rewrite A4. apply (open_prefix t0 (addKids f (map Leaf (nSides n)) :: r)).
    + constructor; [|exact (Forall_inv_tail A2)]. apply frameOk_add; [exact (Forall_inv A2)|apply leafOk].
    + apply rooted_add. auto.
    + rewrite openTrace_add. apply prefix_app. rewrite <- HH. auto.
  - destruct I as [A1 A2 A3 A4 A5 A6 A7 A8].
    eapply stopped_ns; [exact H|]. intros p HP. split; [eapply allN_prefix; [exact HP|apply traceL_allN]|].
    rewrite A4. apply (open_prefix t0 (addKids f (map Leaf (nSides n)) :: r)).
    + constructor; [|exact (Forall_inv_tail A2)]. apply frameOk_add; [exact (Forall_inv A2)|apply leafOk].
    + apply rooted_add. auto.
    + rewrite openTrace_add. apply prefix_app. rewrite <- HH. auto.
Qed.

Ltac stop_case := match goal with H : stopped _ _ _ |- nodeStop _ _ _ => eapply stopped_ns; [exact H|] end.

(** the token is used by the top node in the state [j] *)
Definition takes (j : Z) (t : Tok) (j' : Z) : Prop :=
  (isSide (Some t) /\ j' = j) \/
  (~ isSide (Some t) /\ exists r, ruleOf j r /\ rNode r = SameNode /\ rToken r <> AnyToken /\ tokenMatches t (rToken r) /\ j' = rState r).

(** Changing the state of the top *)
Lemma inv_top t0 (G G' : Prop) f r used s n n' st :
  Inv t0 G (f :: r) used s -> pStack s = n :: st ->
  nIndex n' = nIndex n -> nHooks n' = nHooks n -> nSides n' = nSides n ->
  (G' -> runsOk (f :: r) (n' :: st)) ->
  Inv t0 G' (f :: r) used (setTop s n').
Proof.
  intros [A1 A2 A3 A4 A5 A6 A7 A8] ES HX HH HS HG. rewrite ES in *. cbn [topSides tl] in *.
  constructor; cbn [setTop setStack pStack]; rewrite ?ES; cbn [tl topSides]; auto.
  - inversion A1 as [|? ? ? ? [M1 M2] A1']; subst. constructor; auto. split; congruence.
  - rewrite HS. auto.
  - rewrite HS. auto.
Qed.

Lemma handleNodeToken_ok t0 (G G' : Prop) f r used s n st t j :
  Inv t0 G' (f :: r) used s -> pStack s = n :: st ->
  (G -> runTop f j /\ runPend (fIdx f) r st /\ takes j t (nState n)) ->
  post (handleNodeToken c (Some t) s)
    (fun _ s' => nodeStep s s' /\ (exists sd, pStack s' = setNSides n sd :: st) /\
       exists fs', Inv t0 G fs' (used ++ [t]) s')
    (nodeStop t0 s).
Proof.
  intros I ES HG. unfold handleNodeToken. rewrite ES.
  destruct (isSideToken (cType c) g (Some t)) eqn:SD.
  - apply isSideToken_spec in SD. cbn [post]. split; [constructor; auto; exists []; split; [reflexivity|rewrite app_nil_r; auto]|].
    split; [exists (nSides n ++ [t]); cbn; rewrite ES; auto|].
    exists (f :: r). destruct I as [A1 A2 A3 A4 A5 A6 A7 A8]. rewrite ES in *. cbn [topSides tl] in *.
    constructor; cbn [setTop setStack pStack]; rewrite ?ES; cbn [tl topSides setNSides nSides]; auto.
    + inversion A1 as [|? ? ? ? [M1 M2] A1']; subst. constructor; auto. split; auto.
    + rewrite app_assoc, A5. auto.
    + apply Forall_app. auto.
    + intros H. destruct (HG H) as (B1 & B2 & [[B3 B4]|[B3 _]]); [|contradiction]. split; auto. cbn. rewrite B4. auto.
  - pose proof (handleNodeSides_ok t0 G' (f :: r) used s I) as H. rewrite ES in H.
    specialize (H ltac:(discriminate)).
    destruct (handleNodeSides c s) as [u s1|e s1| |s1]; cbn [bind post] in *; auto.
    destruct H as (NS & ST & f' & r' & EF & I'). injection EF as <- <-. cbn [topSides] in I'.
    destruct (inv_cons _ _ _ _ _ _ _ I' ST) as (f2 & r2 & EF & [HX HH] & _). injection EF as <- <-. cbn in HX, HH.
    destruct I' as [A1 A2 A3 A4 A5 A6 A7 A8].
    assert (OK2 : Forall frameOk (addKids f (map Leaf (nSides n) ++ [Leaf t]) :: r)).
    { constructor; [|exact (Forall_inv_tail A2)]. apply frameOk_add.
      - destruct (Forall_inv A2) as [B1 B2]. split; auto. cbn in B2. apply Forall_app in B2. tauto.
      - apply Forall_app. split; [apply leafOk|]. repeat constructor. }
    assert (OT : openTrace (addKids f (map Leaf (nSides n) ++ [Leaf t]) :: r) =
                 openTrace (addKids f (map Leaf (nSides n)) :: r) ++ calls 0 (fun l i => EvToken l i t) (fHooks f)).
    { rewrite !openTrace_add, traceL_app, traceL1, app_assoc. auto. }
    pose proof (handleTokens_ok c (nHooks n) 0 t s1) as H.
    destruct (handleTokens c 0 (nHooks n) t s1) as [u2 s2|e s2| |s2]; cbn [post] in *; auto.
    + destruct H as [H _]. destruct (added_ns _ _ _ H) as (NS2 & ST2 & EV); [apply calls_allN; auto|].
      split; [eapply ns_trans; eauto|]. split; [exists []; congruence|].
      exists (addKids f (map Leaf (nSides n) ++ [Leaf t]) :: r).
      rewrite ST in *. constructor; rewrite ?ST2, ?ST; auto.
      * inversion A1 as [|? ? ? ? [M1 M2] A1']; subst. constructor; auto. split; auto.
      * rewrite EV, A4, OT. f_equal. f_equal. auto.
      * cbn [openLeaves addKids fKids topSides setNSides nSides] in *. rewrite !leavesL_app, leavesL_Leaf in *. cbn. rewrite app_nil_r in *.
        rewrite <- A5, <- !app_assoc. auto.
      * intros HGG. destruct (HG HGG) as (B1 & B2 & [[B3 B4]|(B3 & rl & R1 & R2 & R3 & R4 & R5)]).
        { apply isSideToken_spec in B3. congruence. }
        split; auto. cbn [nState setNSides]. rewrite R5.
        assert (SF : Forall (fun t => isSide (Some t)) (nSides n)).
        { pose proof (i_side _ _ _ _ _ I) as HS. rewrite ES in HS. exact HS. }
        destruct (runTop_sides f j (nSides n) B1 SF) as (nt & N1 & N2).
        exists nt. split; auto. cbn [addKids fKids] in *. rewrite app_assoc. eapply R_token; eauto.
    + eapply ns_stop; [exact NS|]. stop_case. intros p HP. split; [eapply allN_prefix; [exact HP|apply calls_allN; auto]|].
      rewrite A4. eapply open_prefix; [exact OK2|apply rooted_add; exact A3|]. rewrite OT, <- HH. apply prefix_app. auto.
    + eapply ns_stop; [exact NS|]. stop_case. intros p HP. split; [eapply allN_prefix; [exact HP|apply calls_allN; auto]|].
      rewrite A4. eapply open_prefix; [exact OK2|apply rooted_add; exact A3|]. rewrite OT, <- HH. apply prefix_app. auto.
Qed.

Lemma enter_allN up node t0 hooks : allN (enter up node t0 hooks).
Proof. apply allN_app. split; [apply calls_allN; auto|apply creations_allN]. Qed.

Lemma pushNode_ok t0 (G G' : Prop) fs used s node t :
  (match fs with
   | [] => pStack s = [] /\ nodeEvents (clog s) = [] /\ used = [] /\ node = RootNode /\ t = Some t0
   | f :: r => Inv t0 G' fs used s /\
       (G -> exists j rl, runTop f j /\ runPend (fIdx f) r (tl (pStack s)) /\
          ruleOf j rl /\ rNode rl = node /\ node <> SameNode /\ nState (hd (mkNodeRec [] [] 0 0 0) (pStack s)) = rState rl)
   end) ->
  post (pushNode c node t s)
    (fun _ s' => nodeStep s s' /\ (exists fs', Inv t0 G fs' used s') /\
       exists nt st hooks, zget (gNodes g) node = Some nt /\ zget (gStates g) (gnFirst nt) = Some st /\
         pStack s' = mkNodeRec hooks [] (sTypes st) node (gnFirst nt) :: match pStack s with n :: q => setNSides n [] :: q | [] => [] end)
    (nodeStop t0 s).
Proof.
  intros HP. unfold pushNode.
  (* after flushing the side tokens *)
  assert (H : post (handleNodeSides c s)
    (fun _ s1 => nodeStep s s1 /\ pStack s1 = match pStack s with n :: st => setNSides n [] :: st | [] => [] end /\
       match fs with
       | [] => pStack s1 = [] /\ nodeEvents (clog s1) = [] /\ used = [] /\ node = RootNode /\ t = Some t0
       | f :: r => Inv t0 G' (addKids f (map Leaf (topSides (pStack s))) :: r) used s1 /\
           (G -> exists j rl, runTop (addKids f (map Leaf (topSides (pStack s)))) j /\ runPend (fIdx f) r (tl (pStack s)) /\
          ruleOf j rl /\ rNode rl = node /\ node <> SameNode /\ nState (hd (mkNodeRec [] [] 0 0 0) (pStack s)) = rState rl)
       end) (nodeStop t0 s)).
  { destruct fs as [|f r].
    - destruct HP as (P1 & P2). unfold handleNodeSides. rewrite P1. cbn [post]. split; [apply ns_refl|]. split; auto.
    - destruct HP as (I & HG). pose proof (handleNodeSides_ok t0 G' (f :: r) used s I) as H.
      pose proof (i_match _ _ _ _ _ I) as HM. destruct (pStack s) as [|n st] eqn:ES; [inversion HM|].
      specialize (H ltac:(discriminate)). eapply post_weak; [exact H| |auto].
      intros _ s1 (H1 & H2 & f' & r' & EF & I'). injection EF as <- <-. split; auto. split; auto. split; auto.
      intros HGG. destruct (HG HGG) as (j & rl & B1 & B2 & B3). exists j, rl. split; auto. apply runTop_sides; auto.
      pose proof (i_side _ _ _ _ _ I) as HS. rewrite ES in HS. exact HS. }
  clear HP. destruct (handleNodeSides c s) as [u s1|e s1| |s1]; cbn [bind post] in *; auto.
  destruct H as (NS & ST & H).
  destruct (zget (gNodes g) node) as [nt|] eqn:EN; [|exact I].
  set (up := upOf (match fs with [] => [] | f :: r => f :: r end)).
  set (fs1 := match fs with [] => [] | f :: r => addKids f (map Leaf (topSides (pStack s))) :: r end) in *.
  assert (BASE : Forall frameOk fs1 /\ (fs1 = [] -> node = RootNode /\ t = Some t0) /\ (fs1 <> [] -> rooted t0 fs1) /\
     nodeEvents (clog s1) = openTrace fs1 /\ Forall2 matchF fs1 (pStack s1) /\ openLeaves fs1 ++ topSides (pStack s1) = used).
  { destruct fs as [|f r]; unfold fs1.
    - destruct H as (P1 & P2 & P3 & P4 & P5). rewrite P1, P2, P3. cbn. split; [constructor|]. split; [auto|]. split; [congruence|]. split; [auto|]. split; [constructor|auto].
    - destruct H as [[A1 A2 A3 A4 A5 A6 A7 A8] _]. split; auto. split; [discriminate|]. auto. }
  destruct BASE as (B1 & B2 & B3 & B4 & B5 & B6).
  assert (TAIL : Forall (fun n => nSides n = []) (pStack s1)).
  { destruct fs as [|f r].
    - destruct H as (P1 & _). rewrite P1. auto.
    - destruct H as [[A1 A2 A3 A4 A5 A6 A7 A8] _]. rewrite ST in *. destruct (pStack s); constructor; auto. }
  assert (NEW : post (match pStack s1 with [] => Done tt s1 | n :: _ => newNodes c 0 (nHooks n) node t s1 end)
     (fun _ s2 => added s1 (calls 0 (fun l i => EvNewNode l i node t) (upOf fs1)) s2)
     (stopped s1 (fun p => prefix p (calls 0 (fun l i => EvNewNode l i node t) (upOf fs1))))).
  { destruct (pStack s1) as [|n st] eqn:ES.
    - inversion B5. cbn. apply added_nil.
    - inversion B5 as [|f0 ? r0 ? [M1 M2] B5']. cbn [upOf]. eapply post_weak; [apply newNodes_ok| |].
      + intros _ s2 [HA _]. rewrite <- M2. exact HA.
      + intros s2 HA. rewrite <- M2. exact HA. }
  assert (KEY : forall hooks p, instOk node hooks -> prefix p (enter (upOf fs1) node t hooks) -> okPrefix t0 (nodeEvents (clog s1) ++ p)).
  { intros hooks p HI HP. rewrite B4.
    apply (close_prefix t0 fs1 (Node node t hooks (repeat None (length hooks)) [])); auto.
    - apply treeOk_Node. split; auto. split; [apply repeat_length|constructor].
    - rewrite trace_Node. apply prefix_app. eapply prefix_trans; [exact HP|]. unfold enter.
      apply prefix_app, prefix_app_l, prefix_refl. }
  destruct (match pStack s1 with [] => Done tt s1 | n :: _ => newNodes c 0 (nHooks n) node t s1 end) as [u2 s2|e s2| |s2]; cbn [bind post] in *; auto.
  - destruct (added_ns _ _ _ NEW) as (NS2 & ST2 & EV2); [apply calls_allN; auto|].
    pose proof (newHooks_ok (cNodeHooks c) 0 node t s2) as H3.
    destruct (newHooks 0 (cNodeHooks c) node t s2) as [hooks s3|e s3| |s3]; cbn [bind post] in *; auto.
    + destruct H3 as (HI & HA & _). destruct (added_ns _ _ _ HA (creations_allN _ _ _ _ _)) as (NS3 & ST3 & EV3).
      destruct (zget (gStates g) (gnFirst nt)) as [st|] eqn:EST; [|exact I]. cbn [post].
      split; [destruct (ns_trans _ _ _ NS (ns_trans _ _ _ NS2 NS3)); constructor; auto|].
      split; [|exists nt, st, hooks; split; auto; split; auto; cbn [setStack pStack]; congruence].
      exists (mkF node t hooks [] :: fs1). constructor; cbn [setStack pStack topSides nSides tl].
      * constructor; [split; auto|]. rewrite ST3, ST2. auto.
      * constructor; auto. split; auto. constructor.
      * cbn [rooted]. destruct fs1 as [|f1 r1]; [exact (B2 eq_refl)|]. apply B3. discriminate.
      * change (nodeEvents (clog s3) = openTrace (mkF node t hooks [] :: fs1)).
        rewrite EV3, EV2, B4. cbn [openTrace fIdx fT0 fHooks fKids]. unfold enter, ParserSpec.traceL. cbn. rewrite app_nil_r, <- !app_assoc. auto.
      * cbn [openLeaves fKids leavesL map concat]. unfold leavesL. cbn. rewrite !app_nil_r. rewrite <- B6.
        assert (TS : topSides (pStack s1) = []) by (destruct (pStack s1); auto; exact (Forall_inv TAIL)). rewrite TS, app_nil_r. auto.
      * rewrite ST3, ST2. exact TAIL.
      * constructor.
      * intros HG. split.
        { exists nt. split; [auto|]. apply R_start. }
        rewrite ST3, ST2, ST. unfold fs1. destruct fs as [|f r].
        { destruct H as (P1 & _). rewrite ST in P1. rewrite P1. exact I. }
        destruct H as [_ H]. destruct (H HG) as (j & rl & C1 & C2 & C3 & C4 & C5 & C6).
        destruct (pStack s) as [|n q]; [rewrite ST in B5; inversion B5|].
        cbn [hd tl] in *. split; auto. exists j, rl. auto.
    + eapply ns_stop; [exact NS|]. eapply ns_stop; [exact NS2|]. stop_case.
      intros p (hooks & HI & HP). split; [eapply allN_prefix; [exact HP|apply creations_allN]|].
      rewrite EV2, <- app_assoc. apply (KEY hooks); auto. unfold enter. apply prefix_app. auto.
    + eapply ns_stop; [exact NS|]. eapply ns_stop; [exact NS2|]. stop_case.
      intros p (hooks & HI & HP). split; [eapply allN_prefix; [exact HP|apply creations_allN]|].
      rewrite EV2, <- app_assoc. apply (KEY hooks); auto. unfold enter. apply prefix_app. auto.
  - eapply ns_stop; [exact NS|]. stop_case. intros p HP. split; [eapply allN_prefix; [exact HP|apply calls_allN; auto]|].
    apply (KEY (repeat None (length (hooked node)))); [apply inst_none|]. unfold enter. apply prefix_app_l. auto.
  - eapply ns_stop; [exact NS|]. stop_case. intros p HP. split; [eapply allN_prefix; [exact HP|apply calls_allN; auto]|].
    apply (KEY (repeat None (length (hooked node)))); [apply inst_none|]. unfold enter. apply prefix_app_l. auto.
Qed.

(** A node as seen by lookahead branches *)
Definition bare (n : nodeRec) : nodeRec := mkNodeRec [] [] (nTypes n) (nIndex n) (nState n).
Definition bareS (st : list nodeRec) : list nodeRec := map bare st.

Lemma F2_length {A B} (P : A -> B -> Prop) l m : Forall2 P l m -> length l = length m.
Proof. induction 1; cbn; congruence. Qed.
Lemma instOk_len node hooks : instOk node hooks -> length hooks = length (cNodeHooks c).
Proof. intros H. apply F2_length in H. rewrite <- H. apply map_length. Qed.

Lemma popLoop_ok t0 G used : forall stack fs sides s,
  pStack s = stack -> stack <> [] -> Inv t0 G fs (openLeaves fs) s -> Forall (fun n => nSides n = []) stack ->
  openLeaves fs ++ sides = used -> Forall (fun t => isSide (Some t)) sides ->
  post (popLoop c stack sides s)
    (fun _ s' => nodeStep s s' /\ HInv t0 G used s' /\ bareS (pStack s') = dryPop (bareS stack))
    (nodeStop t0 s).
Proof.
  induction stack as [|n rest IH]; intros fs sides s ES NE I HS HU HSD; [congruence|]. clear NE.
  cbn [popLoop]. destruct (inv_cons _ _ _ _ _ _ _ I ES) as (f & r & -> & [HX HH] & HM2).
  cbn [bareS map dryPop]. change (nState (bare n)) with (nState n).
  destruct (Z.eqb_spec (nState n) FinalState) as [EF|NF]; cbn [negb].
  2:{ cbn [post]. split; [constructor; auto; exists []; split; [reflexivity|rewrite app_nil_r; auto]|].
      split; [|cbn; rewrite ES; reflexivity]. left. exists (f :: r).
      destruct I as [A1 A2 A3 A4 A5 A6 A7 A8]. rewrite ES in *. constructor; cbn [setTop setStack pStack]; rewrite ?ES; cbn [tl topSides setNSides nSides]; auto.
      constructor; auto. split; auto. }
  (* delivering the remaining side tokens *)
  set (kids := match rest with [] => map Leaf sides | _ => [] end : list tree).
  set (f1 := addKids f kids).
  pose proof I as [A1 A2 A3 A4 A5 A6 A7 A8]. rewrite ES in *. cbn [topSides tl] in *.
  assert (KO : Forall treeOk kids) by (unfold kids; destruct rest; [apply leafOk|constructor]).
  assert (OK1 : Forall frameOk (f1 :: r)).
  { constructor; [|exact (Forall_inv_tail A2)]. apply frameOk_add; [exact (Forall_inv A2)|auto]. }
  assert (S1 : post (match rest with [] => handleTokenList c (nHooks n) sides s | _ => Done tt s end)
     (fun _ s1 => added s (traceL (fHooks f) kids) s1)
     (stopped s (fun p => prefix p (traceL (fHooks f) kids)))).
  { unfold kids. rewrite <- HH. destruct rest; [|cbn; apply added_nil].
    eapply post_weak; [apply handleTokenList_ok| |auto]. intros _ s1 [HA _]. exact HA. }
  destruct (match rest with [] => handleTokenList c (nHooks n) sides s | _ => Done tt s end) as [u s1|e s1| |s1]; cbn [bind post] in *; auto.
  2:{ stop_case. intros p HP. split; [eapply allN_prefix; [exact HP|apply traceL_allN]|]. rewrite A4.
      apply (open_prefix t0 (f1 :: r) _ OK1 (rooted_add t0 f kids r A3)). unfold f1. rewrite openTrace_add. apply prefix_app. auto. }
  2:{ stop_case. intros p HP. split; [eapply allN_prefix; [exact HP|apply traceL_allN]|]. rewrite A4.
      apply (open_prefix t0 (f1 :: r) _ OK1 (rooted_add t0 f kids r A3)). unfold f1. rewrite openTrace_add. apply prefix_app. auto. }
  destruct (added_ns _ _ _ S1 (traceL_allN _ _)) as (NS1 & ST1 & EV1).
  assert (EV1' : nodeEvents (clog s1) = openTrace (f1 :: r)) by (unfold f1; rewrite openTrace_add; congruence).
  clear EV1 S1.
  (* the tree being closed *)
  set (T := fun results => Node (fIdx f) (fT0 f) (fHooks f) results (fKids f ++ kids)).
  assert (TOK : forall results, length results = length (fHooks f) -> treeOk (T results)).
  { intros results HL. apply treeOk_Node. destruct (Forall_inv OK1) as [B1 B2]. auto. }
  assert (TTR : forall results, openTrace r ++ trace (upOf r) (T results) =
     openTrace (f1 :: r) ++ callsR 0 (fun l i x => EvEnd l i x) (fHooks f) results ++ callsR 0 (fun l i x => EvNode l i (fIdx f) x) (upOf r) results).
  { intros results. unfold T. rewrite trace_Node. cbn [openTrace f1 addKids fIdx fT0 fHooks fKids]. unfold enter. rewrite <- !app_assoc. auto. }
  assert (CP : forall results p, length results = length (fHooks f) ->
     prefix p (callsR 0 (fun l i x => EvEnd l i x) (fHooks f) results ++ callsR 0 (fun l i x => EvNode l i (fIdx f) x) (upOf r) results) ->
     okPrefix t0 (openTrace (f1 :: r) ++ p)).
  { intros results p HL HP. apply (close_prefix t0 r (T results)); auto.
    - exact (Forall_inv_tail OK1).
    - intros ->. exact A3.
    - intros NE. cbn in A3. destruct r; [congruence|auto].
    - rewrite TTR. apply prefix_app. auto. }
  rewrite HH. pose proof (endNodes_ok c (fHooks f) 0 s1) as S2.
  destruct (endNodes c 0 (fHooks f) s1) as [results s2|e s2| |s2]; cbn [bind post] in *; auto.
  2:{ eapply ns_stop; [exact NS1|]. stop_case. intros p (results & HL & HP). split; [eapply allN_prefix; [exact HP|apply callsR_allN; auto]|].
      rewrite EV1'. apply (CP results); auto. apply prefix_app_l. auto. }
  2:{ eapply ns_stop; [exact NS1|]. stop_case. intros p (results & HL & HP). split; [eapply allN_prefix; [exact HP|apply callsR_allN; auto]|].
      rewrite EV1'. apply (CP results); auto. apply prefix_app_l. auto. }
  destruct S2 as (HL & HA2 & HPL). destruct (added_ns _ _ _ HA2) as (NS2 & ST2 & EV2); [apply callsR_allN; auto|].
  assert (NS02 : nodeStep s (setStack s2 rest)).
  { destruct (ns_trans _ _ _ NS1 NS2). constructor; auto. }
  destruct rest as [|p rest'] eqn:ER.
  - (* the root *)
    cbn [post]. split; auto. split; [|reflexivity]. right. exists (T results).
    inversion HM2; subst r. constructor; auto.
    + pose proof (TTR results) as H. cbn [openTrace upOf app] in H. rewrite H. change (nodeEvents (clog (setStack s2 []))) with (nodeEvents (clog s2)). rewrite EV2, EV1'. cbn [openTrace upOf callsR app]. rewrite app_nil_r. auto.
    + unfold T. rewrite leaves_Node, leavesL_app. unfold kids. rewrite leavesL_Leaf. rewrite <- HU. reflexivity.
    + intros HG. destruct (A8 HG) as [(nt & N1 & N2) _]. destruct A3 as [A3 _]. rewrite A3 in *. unfold T. rewrite A3.
      econstructor; eauto. rewrite EF in N2. apply run_sides; auto.
    + unfold T. destruct (fHooks f) as [|[i|] fh]; auto. destruct results as [|x xs]; auto. intros HW. cbn [setStack pLast]. rewrite HPL, HW. reflexivity.
  - (* a parent *)
    inversion HM2 as [|fp ? r' ? [PX PH] HM3]; subst r.
    assert (HLP : length results = length (fHooks fp)).
    { rewrite HL. destruct (Forall_inv OK1) as [B1 _]. destruct (Forall_inv (Forall_inv_tail OK1)) as [B2 _].
      apply instOk_len in B1, B2. cbn in B1. congruence. }
    rewrite HX, PH. pose proof (handleNodes_ok c (fHooks fp) 0 (fIdx f) results (setStack s2 (p :: rest')) HLP) as S3.
    assert (PFX : forall q, prefix q (callsR 0 (fun l i x => EvNode l i (fIdx f) x) (fHooks fp) results) ->
       allN q /\ okPrefix t0 (nodeEvents (clog (setStack s2 (p :: rest'))) ++ q)).
    { intros q HQ. split; [eapply allN_prefix; [exact HQ|apply callsR_allN; auto]|].
      change (clog (setStack s2 (p :: rest'))) with (clog s2). rewrite EV2, EV1', <- app_assoc. apply (CP results); auto.
      apply prefix_app. auto. }
    destruct (handleNodes c 0 (fHooks fp) (fIdx f) results (setStack s2 (p :: rest'))) as [u3 s3|e s3| |s3]; cbn [bind post] in *; auto.
    2:{ eapply ns_stop; [exact NS02|]. stop_case. auto. }
    2:{ eapply ns_stop; [exact NS02|]. stop_case. auto. }
    destruct S3 as [S3 _]. destruct (added_ns _ _ _ S3) as (NS3 & ST3 & EV3); [apply callsR_allN; auto|]. cbn [setStack pStack] in ST3.
    assert (NS03 : nodeStep s s3) by (eapply ns_trans; eauto).
    eapply post_weak; [apply (IH (addKids fp [T results] :: r') sides s3); auto| |].
    + discriminate.
    + constructor; rewrite ?ST3; cbn [topSides tl].
      * constructor; auto. split; auto.
      * pose proof (Forall_inv_tail OK1) as OK2. constructor; [|exact (Forall_inv_tail OK2)]. apply frameOk_add; [exact (Forall_inv OK2)|]. constructor; auto.
      * apply rooted_add. exact A3.
      * rewrite openTrace_add, traceL1, EV3. change (clog (setStack s2 (p :: rest'))) with (clog s2). rewrite EV2, EV1'.
        pose proof (TTR results) as H. cbn [upOf] in H. rewrite H, <- !app_assoc. auto.
      * pose proof (Forall_inv (Forall_inv_tail HS)) as SP. cbn in SP. rewrite SP, app_nil_r. auto.
      * exact (Forall_inv_tail (Forall_inv_tail HS)).
      * pose proof (Forall_inv (Forall_inv_tail HS)) as SP. cbn in SP. rewrite SP. constructor.
      * intros HG. destruct (A8 HG) as [(nt & N1 & N2) [(j & rl & C1 & C2 & C3 & C4 & C5) C6]]. split; auto.
        destruct C1 as (ntp & P1 & P2). exists ntp. split; auto. rewrite C5. cbn [addKids fKids]. eapply R_node; eauto; [congruence|].
        rewrite C3. unfold T. econstructor; eauto. rewrite EF in N2. unfold kids. rewrite app_nil_r. exact N2.
    + rewrite <- HU. cbn [openLeaves addKids fKids]. rewrite leavesL_app. unfold leavesL at 2. cbn [map concat]. unfold T. rewrite leaves_Node. unfold kids. rewrite !app_nil_r, <- !app_assoc. auto.
    + intros _ s4 (X1 & X2 & X3). split; [eapply ns_trans; eauto|]. split; auto.
    + intros s4 X. eapply ns_stop; eauto.
Qed.

(** The rule may be applied to the token in the state. *)
Definition fits (j : Z) (t : option Tok) (r : rule) : Prop :=
  (exists tok, t = Some tok /\ isSide (Some tok) /\ r = mkRule (cType c tok) repeatState SameNode) \/
  (~ isSide t /\ ruleOf j r /\ rState r <> repeatState /\
   (forall tok, t = Some tok -> rToken r <> AnyToken -> tokenMatches tok (rToken r)) /\
   (t = None -> rToken r = AnyToken)).

Definition optTok (t : option Tok) : list Tok := match t with Some t => [t] | None => [] end.

(** the end of applyRule *)
Lemma finish_ok t0 G fs used s : Inv t0 G fs used s ->
  post (match pStack s with n :: _ => if nState n =? FinalState then popNode c s else Done tt s | [] => Panic end)
    (fun _ s' => nodeStep s s' /\ HInv t0 G used s' /\
       bareS (pStack s') = match bareS (pStack s) with n :: _ => if nState n =? FinalState then dryPop (bareS (pStack s)) else bareS (pStack s) | [] => [] end)
    (nodeStop t0 s).
Proof.
  intros I. destruct (pStack s) as [|n st] eqn:ES; [exact Logic.I|]. cbn [bareS map]. change (nState (bare n)) with (nState n).
  destruct (nState n =? FinalState) eqn:EF.
  - unfold popNode. rewrite ES.
    destruct (inv_cons _ _ _ _ _ _ _ I ES) as (f & r & -> & [HX HH] & HM2).
    pose proof I as [A1 A2 A3 A4 A5 A6 A7 A8]. rewrite ES in *. cbn [topSides tl] in *.
    assert (NS : nodeStep s (setTop s (setNSides n []))).
    { constructor; auto. exists []. split; [reflexivity|]. rewrite app_nil_r. reflexivity. }
    eapply post_weak; [apply (popLoop_ok t0 G used _ (f :: r) (nSides n) (setTop s (setNSides n []))); auto| |].
    + discriminate.
    + constructor; cbn [setTop setStack pStack]; rewrite ?ES; cbn [tl topSides setNSides nSides]; auto.
      * constructor; auto. split; auto.
      * apply app_nil_r.
    + cbn [setTop setStack pStack]. rewrite ES. constructor; auto.
    + intros _ s' (B1 & B2 & B3). split; [eapply ns_trans; eauto|]. split; auto.
      rewrite B3. cbn [setTop setStack pStack]. rewrite ES. reflexivity.
    + intros s' B. eapply ns_stop; eauto.
  - cbn [post]. split; [apply ns_refl|]. split; [left; eauto|]. rewrite ES. reflexivity.
Qed.

Definition newTop (r : rule) (n : nodeRec) : option nodeRec :=
  if rState r =? repeatState then Some n
  else let n := setNState n (rState r) in
       if rState r =? FinalState then Some n
       else do st <- zget (gStates g) (rState r); Some (setNTypes n (sTypes st)).
Lemma newTop_bare r n : newTop r (bare n) = match newTop r n with Some n' => Some (bare n') | None => None end.
Proof.
  unfold newTop. destruct (rState r =? repeatState); auto. destruct (rState r =? FinalState); auto.
  destruct (zget (gStates g) (rState r)); auto.
Qed.
Lemma newTop_same r n n' : newTop r n = Some n' -> nIndex n' = nIndex n /\ nHooks n' = nHooks n /\ nSides n' = nSides n /\
  nState n' = if rState r =? repeatState then nState n else rState r.
Proof.
  unfold newTop. destruct (rState r =? repeatState); [intros H; injection H as <-; auto|].
  destruct (rState r =? FinalState); [intros H; injection H as <-; auto|].
  destruct (zget (gStates g) (rState r)); [|discriminate]. cbn. intros H. injection H as <-. auto.
Qed.

Lemma applyRule_ok t0 (G G' : Prop) fs used s t r n st :
  Inv t0 G fs used s -> pStack s = n :: st -> (G' -> G /\ fits (nState n) t r) ->
  post (applyRule c t r s)
    (fun cons s' => nodeStep s s' /\ HInv t0 G' (used ++ if cons then optTok t else []) s' /\
       dryRule c t r (bareS (pStack s)) = Some (cons, bareS (pStack s')))
    (nodeStop t0 s).
Proof.
  intros I ES HG. unfold applyRule. rewrite ES.
  destruct (inv_cons _ _ _ _ _ _ _ I ES) as (f & fr & -> & [HX HH] & HM2).
  set (same := rNode r =? SameNode). set (cons := same && negb (rToken r =? AnyToken) || match t with None => true | Some _ => false end).
  fold (newTop r n). destruct (newTop r n) as [n1|] eqn:EN; [|exact Logic.I].
  destruct (newTop_same _ _ _ EN) as (N1 & N2 & N3 & N4).
  assert (I1 : Inv t0 False (f :: fr) used (setTop s n1)) by (eapply inv_top; eauto; tauto).
  assert (NS1 : nodeStep s (setTop s n1)).
  { constructor; auto. exists []. split; [reflexivity|]. rewrite app_nil_r. reflexivity. }
  assert (ES1 : pStack (setTop s n1) = n1 :: st) by (cbn; rewrite ES; auto).
  assert (RUN : G' -> runTop f (nState n) /\ runPend (fIdx f) fr st /\ fits (nState n) t r).
  { intros H. destruct (HG H) as [H1 H2]. pose proof (i_runs _ _ _ _ _ I H1) as H3. rewrite ES in H3. destruct H3. auto. }
  (* the middle part *)
  assert (MID : post (if negb same then pushNode c (rNode r) t (setTop s n1)
                      else if cons then handleNodeToken c t (setTop s n1) else Done tt (setTop s n1))
     (fun _ s2 => nodeStep s s2 /\ (exists fs2, Inv t0 G' fs2 (used ++ if cons then optTok t else []) s2) /\
        exists new, dryRule c t r (bareS (n :: st)) = Some (cons, match new with m :: _ => if nState m =? FinalState then dryPop new else new | [] => new end) /\ bareS (pStack s2) = new)
     (nodeStop t0 s)).
  { assert (DRY : dryRule c t r (bareS (n :: st)) =
       do stk <- (if same then Some (bareS (n1 :: st)) else
          do nt <- zget (gNodes g) (rNode r); do sst <- zget (gStates g) (gnFirst nt);
          Some (mkNodeRec [] [] (sTypes sst) (rNode r) (gnFirst nt) :: bareS (n1 :: st)));
       Some (cons, match stk with m :: _ => if nState m =? FinalState then dryPop stk else stk | [] => stk end)).
    { unfold dryRule. cbn [bareS map]. fold (newTop r (bare n)). rewrite newTop_bare, EN. cbn [obind]. fold same. fold cons. auto. }
    destruct same eqn:SM; cbn [negb].
    - assert (SKIP : optTok t = [] \/ cons = false -> (G' -> rToken r = AnyToken) -> exists fs2, Inv t0 G' fs2 (used ++ (if cons then optTok t else [])) (setTop s n1)).
      { intros HE HA. exists (f :: fr). replace (if cons then optTok t else []) with (@nil Tok) by (destruct HE as [-> | ->]; destruct cons; auto).
        rewrite app_nil_r. eapply inv_top; [exact I| | | | |]; eauto.
        intros H. destruct (RUN H) as (R1 & R2 & R3). specialize (HA H). split; auto. rewrite N4.
        destruct R3 as [(tok & -> & S1 & ->)|(S1 & S2 & S3 & S4 & S5)].
        - cbn in HA. destruct S1 as (t' & S1 & d & S2 & _). injection S1 as <-. apply zget_Some_inv in S2. unfold AnyToken in HA. lia.
        - rewrite (proj2 (Z.eqb_neq _ _) S3). destruct R1 as (nt & P1 & P2). exists nt. split; auto. eapply R_skip; eauto. apply Z.eqb_eq. exact SM. }
      destruct cons eqn:CN.
      + destruct t as [tok|].
        * pose proof (handleNodeToken_ok t0 G' False f fr used (setTop s n1) n1 st tok (nState n) I1 ES1) as H.
          eapply post_weak; [apply H| |].
          -- intros HGG. destruct (RUN HGG) as (R1 & R2 & R3). split; auto. split; auto. rewrite N4.
             destruct R3 as [(tok' & ET & S1 & ->)|(S1 & S2 & S3 & S4 & S5)].
             ++ left. injection ET as <-. split; auto.
             ++ right. split; auto. exists r. unfold cons in CN. cbn in CN. rewrite orb_false_r in CN. apply negb_true_iff, Z.eqb_neq in CN.
                rewrite (proj2 (Z.eqb_neq _ _) S3). repeat split; auto. apply Z.eqb_eq. exact SM.
          -- intros _ s2 (B1 & (sd & B2) & B3). split; [eapply ns_trans; eauto|]. split; auto.
             exists (bareS (n1 :: st)). split; [rewrite DRY; reflexivity|rewrite B2; reflexivity].
          -- intros s2 B. eapply ns_stop; eauto.
        * cbn [handleNodeToken post]. split; auto. split; [apply SKIP; auto|].
          -- intros H. destruct (RUN H) as (_ & _ & [(tok & ? & _)|(_ & _ & _ & _ & S5)]); [discriminate|auto].
          -- exists (bareS (n1 :: st)). split; [rewrite DRY; reflexivity|rewrite ES1; reflexivity].
      + cbn [post]. split; auto. split; [apply SKIP; auto|].
        * intros _. unfold cons in CN. apply orb_false_iff in CN as [CN _]. cbn in CN. apply negb_false_iff, Z.eqb_eq in CN. auto.
        * exists (bareS (n1 :: st)). split; [rewrite DRY; reflexivity|rewrite ES1; reflexivity].
    - pose proof (pushNode_ok t0 G' False (f :: fr) used (setTop s n1) (rNode r) t) as H. cbv beta iota in H.
      eapply post_weak; [apply H| |].
      + split; auto. intros HGG. destruct (RUN HGG) as (R1 & R2 & R3). exists (nState n), r. rewrite ES1. cbn [hd tl].
        destruct R3 as [(tok' & ET & S1 & ->)|(S1 & S2 & S3 & S4 & S5)]; [discriminate|].
        rewrite N4, (proj2 (Z.eqb_neq _ _) S3). apply Z.eqb_neq in SM. auto 10.
      + intros _ s2 (B1 & (fs2 & B2) & nt & sst & hooks & B3 & B4 & B5). split; [eapply ns_trans; eauto|].
        split.
        * exists fs2. replace (if cons then optTok t else []) with (@nil Tok); [rewrite app_nil_r; auto|].
          unfold cons. cbn. destruct t; auto.
        * exists (bareS (pStack s2)). split; auto. rewrite DRY, B3. cbn [obind]. rewrite B4. cbn [obind]. rewrite B5, ES1. reflexivity.
      + intros s2 B. eapply ns_stop; eauto. }
  destruct (if negb same then pushNode c (rNode r) t (setTop s n1) else if cons then handleNodeToken c t (setTop s n1) else Done tt (setTop s n1)) as [u s2|e s2| |s2]; cbn [bind post] in *; auto.
  destruct MID as (M1 & (fs2 & M2) & new & M3 & M4).
  pose proof (finish_ok t0 G' fs2 _ s2 M2) as FIN.
  destruct (match pStack s2 with n :: _ => if nState n =? FinalState then popNode c s2 else Done tt s2 | [] => Panic end) as [u3 s3|e s3| |s3]; cbn [bind post] in *; auto.
  - destruct FIN as (F1 & F2 & F3). split; [eapply ns_trans; eauto|]. split; auto. rewrite M3, F3, M4. do 2 f_equal. destruct new; auto.
  - eapply ns_stop; eauto.
  - eapply ns_stop; eauto.
Qed.
End P.
