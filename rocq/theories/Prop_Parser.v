(** Parsing: hook calls, delivery of tokens, derivations, errors (C25-C27, C29, C31, C33). *)
From Coq Require Import ZArith List Bool Lia Arith.
From Verif Require Import Base BaseProofs Grammar Rules RulesSpec Prop_Rules Parser ParserSpec ParserProofs ParserInv ParserStream
  ParserLook ParserErr ParserMain ParserWorld ParserFlowSpec ParserEnd ParserDemo.
Import ListNotations.
Open Scope Z_scope.

(** The state in which a parse ends, if it ends in one *)
Definition endsIn {Tok Src W E Inst R A} (m : res Tok Src W E Inst R A) (s : pstate Tok Src W E Inst R) : Prop :=
  match m with Done _ s' | Fail _ s' | NoFuel s' => s = s' | Panic => False end.

Section P.
Context {Tok Src W E Inst R : Type}.
Variable c : config Tok Src W E Inst R.
Notation g := (cGrammar c).
Notation pstate := (pstate Tok Src W E Inst R).
Notation event := (event Tok E Inst R).
Notation tree := (tree Tok Inst R).
(** what has happened, in the order of time *)
Notation history s := (rev (pLog s)).
Notation hooked := (hookedIn (cNodeHooks c)).
Notation trace := (trace (Tok:=Tok) (E:=E) (Inst:=Inst) (R:=R) hooked).
Notation treeOk := (treeOk (Tok:=Tok) (R:=R) hooked).
Notation derived := (derived (Inst:=Inst) (R:=R) (cType c) (cText c) (cUpper c) g).

(** *** C25 *)
(** The calls of node hooks in a successful parse are those that report some tree, with the
    root node and the first token of the source; the result is that of the root node. *)
Theorem hooks_well_nested fuel w t0 r s : parseFrom c fuel w t0 = Done r s ->
  exists hooks results kids, let T := Node RootNode (Some t0) hooks results kids in
    treeOk T /\ nodeEvents (history s) = trace [] T /\
    (forall i, nth_error hooks 0 = Some (Some i) -> cWatchNodes c = true -> nth_error results 0 = Some r).
Proof.
  intros H. pose proof (parseFrom_ok c fuel w t0) as P. rewrite H in P. destruct P as (T & []). destruct T as [|n t hooks results kids]; [destruct f_root|].
  destruct f_root as [-> ->]. exists hooks, results, kids. split; auto. split; auto. intros i HI HW.
  destruct hooks as [|h hs]; [discriminate|]. cbn in HI. injection HI as ->. cbn in f_ok. destruct f_ok as (_ & HL & _).
  destruct results as [|x xs]; [discriminate|]. cbn. f_equal. symmetry. auto.
Qed.
(** However a parse ends, the calls so far are the beginning of such a report. *)
Theorem hooks_well_nested_prefix fuel w t0 s : endsIn (parseFrom c fuel w t0) s ->
  exists hooks results kids, let T := Node RootNode (Some t0) hooks results kids in
    treeOk T /\ prefix (nodeEvents (history s)) (trace [] T).
Proof.
  intros H. assert (P : okPrefix c t0 (nodeEvents (history s))).
  { pose proof (parseFrom_ok c fuel w t0) as P. destruct (parseFrom c fuel w t0) as [r s'|e s'| |s']; cbn in H, P; subst; [|apply P|destruct H|apply P].
    destruct P as (T & []). exists T. split; auto. split; auto. exists []. rewrite app_nil_r. auto. }
  destruct P as (T & P1 & P2 & P3). destruct T as [|n t hooks results kids]; [destruct P2|]. destruct P2 as [-> ->]. exists hooks, results, kids. auto.
Qed.

(** *** C26 *)
Lemma tokensOf_app k (a b : list event) : tokensOf k (a ++ b) = tokensOf k a ++ tokensOf k b.
Proof. apply flat_map_app. Qed.
Lemma tokensOf_none k (l : list event) : forallb (fun ev => match ev with EvToken _ _ _ => false | _ => true end) l = true -> tokensOf k l = [].
Proof. induction l as [|e l IH]; cbn; auto. destruct e; cbn; try discriminate; auto. Qed.
Lemma calls_other k f (hooks : list (option Inst)) : (forall l i, match f l i : event with EvToken _ _ _ => False | _ => True end) -> forall layer, tokensOf k (calls layer f hooks) = [].
Proof.
  intros H layer. apply tokensOf_none. revert layer. induction hooks as [|[i|] r IH]; intros; cbn; auto. specialize (H layer i).
  destruct (f layer i); cbn; auto; destruct H.
Qed.
Lemma callsR_other k f (hooks : list (option Inst)) : (forall l i x, match f l i x : event with EvToken _ _ _ => False | _ => True end) ->
  forall layer (results : list (option R)), tokensOf k (callsR layer f hooks results) = [].
Proof.
  intros H layer results. apply tokensOf_none. revert layer results. induction hooks as [|[i|] r IH]; intros layer [|x xs]; cbn; auto. specialize (H layer i x).
  destruct (f layer i x); cbn; auto; destruct H.
Qed.
Lemma creations_other k node t : forall hk (hooks : list (option Inst)) layer, tokensOf k (creations layer hk node t hooks : list event) = [].
Proof. intros. apply tokensOf_none. revert hooks layer. induction hk as [|[] hk IH]; intros [|h hooks] layer; cbn; auto. Qed.
Lemma calls_token k t : forall (hooks : list (option Inst)) layer, (layer <= k)%nat ->
  tokensOf k (calls layer (fun l i => EvToken l i t : event) hooks) =
  match nth_error hooks (k - layer) with Some (Some _) => [t] | _ => [] end.
Proof.
  assert (Z0 : forall hooks layer, (k < layer)%nat -> tokensOf k (calls layer (fun l i => EvToken l i t : event) hooks) = []).
  { induction hooks as [|[i|] r IH]; intros layer HL; [reflexivity| |apply IH; lia].
    cbn [calls]. match goal with |- tokensOf k (?a :: ?b) = _ => change (a :: b) with ([a] ++ b) end. rewrite tokensOf_app, IH by lia. cbn. rewrite (proj2 (Nat.eqb_neq layer k)) by lia. auto. }
  induction hooks as [|h r IH]; intros layer HL; [cbn; destruct (k - layer)%nat; auto|].
  assert (HC : tokensOf k (calls layer (fun l i => EvToken l i t : event) (h :: r)) =
    (if (layer =? k)%nat then match h with Some _ => [t] | None => [] end else []) ++ tokensOf k (calls (S layer) (fun l i => EvToken l i t : event) r)).
  { destruct h as [i|]; cbn [calls]; [|destruct (_ =? _)%nat; auto]. match goal with |- tokensOf k (?a :: ?b) = _ => change (a :: b) with ([a] ++ b) end.
    rewrite tokensOf_app. f_equal. cbn. destruct (_ =? _)%nat; auto. }
  rewrite HC. destruct (Nat.eqb_spec layer k) as [->|HN].
  - rewrite Nat.sub_diag, Z0, app_nil_r by lia. destruct h; auto.
  - replace (k - layer)%nat with (S (k - S layer)) by lia. cbn [nth_error app]. apply IH. lia.
Qed.
Lemma tokensOf_trace k : forall T up, everyNodeHas k T -> match T with Leaf _ => exists i, nth_error up k = Some (Some i) | _ => True end ->
  tokensOf k (trace up T) = leaves T.
Proof.
  fix IH 1. intros [t|node t0 hooks results kids] up HE HU; cbn [ParserSpec.trace leaves].
  - rewrite calls_token by lia. rewrite Nat.sub_0_r. destruct HU as (i & ->). auto.
  - rewrite !tokensOf_app, (calls_other k), creations_other, (callsR_other k), (callsR_other k); try (intros; exact I). rewrite !app_nil_r. cbn [app].
    cbn [everyNodeHas] in HE. destruct HE as [HI HE]. revert HE. induction kids as [|T kids IHk]; intros HE; [auto|]. destruct HE as [H1 H2].
    rewrite tokensOf_app, (IH T hooks); auto.
    + f_equal. apply IHk. auto.
    + destruct T; auto.
Qed.
Lemma tokensOf_nodes k (l : list event) : tokensOf k (nodeEvents l) = tokensOf k l.
Proof.
  unfold nodeEvents. induction l as [|e l IH]; [reflexivity|]. change (e :: l) with ([e] ++ l) at 2. rewrite tokensOf_app, <- IH.
  cbn [filter]. destruct e; cbn [isNodeEvent]; [| | | | |exact eq_refl..]; match goal with |- tokensOf k (?a :: ?b) = _ => change (a :: b) with ([a] ++ b) end;
    rewrite tokensOf_app; auto.
Qed.

Lemma kept_visible l : kept c l = filter (visibleO c) (passed 0 l).
Proof. unfold kept. apply filter_ext. intros. symmetry. apply visible_keep. Qed.

(** The parser takes the visible tokens of the stream one by one, and no other token; all of
    them are in the tree, in the same order, save for the last one that may be left unused.  A hook
    layer present in every node gets each of them once. *)
Theorem tokens_delivered_once fuel w t0 r s : parseFrom c fuel w t0 = Done r s ->
  exists T unused,
    nodeEvents (history s) = trace [] T /\
    somes (nexts (history s)) = leaves T ++ unused /\ (length unused <= 1)%nat /\
    filter (visibleO c) (passed 0 (history s)) = nexts (history s) ++ map Some (rests (history s)) ++ pTokens s /\
    (forall layer, everyNodeHas layer T -> tokensOf layer (history s) = leaves T).
Proof.
  intros H. pose proof (parseFrom_ok c fuel w t0) as P. rewrite H in P. destruct P as (T & []). destruct f_leaves as (unused & HL & HU).
  exists T, unused. split; auto. split; auto. split; auto. split; [rewrite <- kept_visible; auto|]. intros layer HE.
  rewrite <- tokensOf_nodes. change (history s) with (clog s). rewrite f_events. apply tokensOf_trace; auto. destruct T; [destruct f_root|exact I].
Qed.
(** Tokens of the stream come from the source: with hooks leaving the source alone, the lexers
    have given out the beginning of it, and end-of-input tokens only after the end. *)
Theorem tokens_from_source (view : Src -> list Tok) eoi fuel w t0 r s :
  sourceOf c view eoi -> quietHooks c -> cFullSource c = false ->
  parseFrom c fuel w t0 = Done r s -> (forall ev, In ev (pLog s) -> failed ev = false) ->
  exists taken eois, somes (passed (length (cTokenHooks c)) (history s)) = taken ++ eois /\
    prefix taken (view (fst w)) /\ Forall (eq eoi) eois /\ (eois <> [] -> taken = view (fst w)).
Proof.
  intros HS HQ HF H NF. unfold parseFrom, start in H. set (s0 := mkP w [] (repeat [] (length (cTokenHooks c))) [] None [] [] false) in H.
  pose proof (hs_pushNode c RootNode (Some t0) s0) as HH0. destruct (pushNode c RootNode (Some t0) s0) as [u s1|e s1| |s1]; cbn [bind hs] in *; try discriminate.
  unfold parse in H. pose proof (hs_parseLoop c fuel true None s1) as HH1. destruct (parseLoop c fuel true None s1) as [[used t] s2|e s2| |s2]; cbn [bind hs] in *; try discriminate.
  pose proof (hist_trans c _ _ _ HH0 HH1) as HH. rewrite HF in H.
  destruct (if used then Some s2 else _) as [s3|] eqn:E3; [|discriminate]. cbn [andb bind] in H. injection H as _ <-.
  assert (S3 : pLog s3 = pLog s2).
  { destruct used; [injection E3 as <-; auto 6|]. destruct t as [t|]; [|discriminate]. injection E3 as <-. destruct (_ =? _); auto 6. }
  rewrite S3 in *. destruct (readS_hist c view eoi HS HQ _ _ HH) as (_ & l & taken & eois & L1 & L2 & L3 & L4 & L5).
  { cbn. unfold noFail. apply forallb_forall. intros ev HE. rewrite NF; auto. apply in_rev. auto. }
  cbn in L1. rewrite L1. exists taken, eois. split; auto. cbn in L3. split; [exists (view (fst (pWorld s2))); auto|]. split; auto.
  intros HE. rewrite L3. cbn in L5. rewrite L5; auto. rewrite app_nil_r. auto.
Qed.

(** *** C27 *)
(** The tree reported to the hooks is a run of the grammar: proved for parses in which the
    lookahead has not lost a branch (always so without ambiguous rules). *)
Theorem parse_is_derivation_partial fuel w t0 r s : tablesOk g -> parseFrom c fuel w t0 = Done r s -> pLost s = false ->
  exists T unused, derived RootNode T /\ nodeEvents (history s) = trace [] T /\
    somes (nexts (history s)) = leaves T ++ unused /\ (length unused <= 1)%nat.
Proof.
  intros HT H HL. pose proof (parseFrom_ok c fuel w t0) as P. rewrite H in P. destruct P as (T & []). destruct f_leaves as (unused & H1 & H2).
  exists T, unused. auto.
Qed.
Theorem parse_is_derivation_deterministic fuel w t0 r s : tablesOk g -> gMultiRules g = [] -> parseFrom c fuel w t0 = Done r s ->
  exists T unused, derived RootNode T /\ nodeEvents (history s) = trace [] T /\
    somes (nexts (history s)) = leaves T ++ unused /\ (length unused <= 1)%nat.
Proof.
  intros HT HM H. eapply parse_is_derivation_partial; eauto. pose proof (parseFrom_ok c fuel w t0) as P. rewrite H in P. destruct P as (T & []). auto.
Qed.

(** *** C29 *)
(** Each hook layer decides on exactly the tokens given out by the next one (the lexers for
    the last layer), in that order; what it gives out is the replacements of these tokens, one after
    another; the rest is waiting in its queue. *)
Theorem hook_layers_preserve_order fuel w t0 r s layer :
  parseFrom c fuel w t0 = Done r s -> (forall ev, In ev (pLog s) -> failed ev = false) ->
  (layer < length (cTokenHooks c))%nat ->
  map fst (decisions layer (history s)) = somes (passed (S layer) (history s)) /\
  exists waiting, flat_map replacement (decisions layer (history s)) = somes (passed layer (history s)) ++ waiting.
Proof.
  intros H NF HL. pose proof (parseFrom_ok c fuel w t0) as P. rewrite H in P. destruct P as (T & []).
  destruct (f_flow) with (k := layer) as [F1 F2]; auto.
  { unfold noFail. apply forallb_forall. intros ev HE. rewrite NF; auto. apply in_rev. auto. }
  split; auto. exists (nth layer (pQueues s) []). change (history s) with (clog s). rewrite F2. apply flat_map_ext. intros [t [[] extra]]; reflexivity.
Qed.
Lemma prim_decide : forall w l w' ev, prim c (w, l) (w', ev :: l) -> decideOk c ev.
Proof.
  intros w l w' ev H. inversion H; subst; cbn; auto. intros HN.
  match goal with X : (?a, ?b) = (if negb ?e && _ then _ else _) |- _ => rename X into HX; rename e into em end.
  rewrite (proj2 (Z.ltb_lt _ _) HN) in HX. destruct em; cbn in HX; [left; congruence|].
  destruct extra as [|x q]; injection HX as -> ->; [left; auto|right; exists (x :: q); auto].
Qed.
(** Tokens made by the engine (negative types: end of input, end of file) are never dropped: a
    replacement has the token itself as its first or last item. *)
Theorem special_tokens_survive fuel w t0 s layer t emit extra :
  endsIn (parseFrom c fuel w t0) s -> In (EvDecide layer t emit extra) (pLog s) -> cType c t < 0 ->
  exists l, replacement (t, (emit, extra)) = l ++ [t] \/ replacement (t, (emit, extra)) = t :: l.
Proof.
  intros H HI HN. pose proof (ends_events c (decideOk c) fuel w t0) as HE.
  assert (X : Forall (decideOk c) (pLog s)).
  { destruct (parseFrom c fuel w t0); cbn in H; subst; [apply HE|apply HE|destruct H|apply HE];
    apply prim_decide. }
  rewrite Forall_forall in X. specialize (X _ HI HN). cbn in X. destruct emit; [exists extra; auto|]. destruct X as [|(l & ->)]; [discriminate|]. exists l. auto.
Qed.
(** *** C31 *)
Lemma nb_In (bad : event -> bool) (q : Prop) l : q -> nbl bad q l -> forall ev, In ev l -> bad ev = false.
Proof. intros HQ H ev HI. specialize (H HQ). rewrite forallb_forall in H. specialize (H _ HI). destruct (bad ev); auto. Qed.
(** An error of a node hook (constructor or method) is what the parse returns, and the last
    thing that happens. *)
Theorem node_hook_error_aborts fuel w t0 s e :
  endsIn (parseFrom c fuel w t0) s -> In (EvNodeFail e) (pLog s) ->
  parseFrom c fuel w t0 = Fail (External e) s /\ exists before, history s = before ++ [EvNodeFail e] /\ forall e', ~ In (EvNodeFail e') before.
Proof.
  intros H HI. pose proof (errs_parseFrom c isNodeFail True) as HE. specialize (HE ltac:(intros [] HF _; cbn in *; congruence)).
  specialize (HE ltac:(right; intros []; cbn; congruence) fuel w t0).
  destruct (parseFrom c fuel w t0) as [r s'|e' s'| |s']; cbn in H; [| |destruct H|]; subst s'; cbn in HE.
  - pose proof (nb_In _ _ _ Logic.I HE _ HI). discriminate.
  - destruct HE as [(ev & l & E1 & E2 & HL)|[_ HL]]; [|pose proof (nb_In _ _ _ Logic.I HL _ HI); discriminate].
    rewrite E1 in HI. destruct HI as [->|HI]; [|pose proof (nb_In _ _ _ Logic.I HL _ HI); discriminate].
    cbn in E2. injection E2 as <-. split; auto. exists (rev l). split; [rewrite E1; auto|]. intros e' HI. apply in_rev in HI. pose proof (nb_In _ _ _ Logic.I HL _ HI). discriminate.
  - pose proof (nb_In _ _ _ Logic.I HE _ HI). discriminate.
Qed.
(** The same for errors of token hooks, lexers and the context and for tokens of wrong types
    emitted by hooks: proved for grammars without ambiguous rules (see the refutation below). *)
Theorem token_hook_error_aborts_partial fuel w t0 s ev :
  gMultiRules g = [] -> endsIn (parseFrom c fuel w t0) s -> In ev (pLog s) -> failed ev = true ->
  (exists err, parseFrom c fuel w t0 = Fail err s /\
     match ev with EvNodeFail e | EvFail e => err = External e | EvWrong t => err = EmitWrongToken t | _ => False end) /\
  exists before, history s = before ++ [ev] /\ forall ev', In ev' before -> failed ev' = false.
Proof.
  intros HM H HI HF. pose proof (errs_parseFrom c failed True (fun ev H _ => H) (or_introl (fun _ => HM)) fuel w t0) as HE.
  destruct (parseFrom c fuel w t0) as [r s'|e' s'| |s']; cbn in H; [| |destruct H|]; subst s'; cbn in HE.
  - pose proof (nb_In _ _ _ Logic.I HE _ HI). congruence.
  - destruct HE as [(ev' & l & E1 & E2 & HL)|[_ HL]]; [|pose proof (nb_In _ _ _ Logic.I HL _ HI); congruence].
    rewrite E1 in HI. destruct HI as [->|HI]; [|pose proof (nb_In _ _ _ Logic.I HL _ HI); congruence]. split.
    + exists e'. split; auto. destruct ev; try discriminate; cbn in E2; congruence.
    + exists (rev l). split; [rewrite E1; auto|]. intros ev' HI. apply in_rev in HI. exact (nb_In _ _ _ Logic.I HL _ HI).
  - pose proof (nb_In _ _ _ Logic.I HE _ HI). congruence.
Qed.

(** *** C33 *)
(** A successful full-source parse has seen the end of input, and after the tree there have
    been side tokens only. *)
Theorem full_source_to_the_end fuel w t0 r s : cFullSource c = true -> parseFrom c fuel w t0 = Done r s ->
  exists T seen, nodeEvents (history s) = trace [] T /\ somes (nexts (history s)) ++ rests (history s) = seen /\
    filter (visibleO c) (passed 0 (history s)) = nexts (history s) ++ map Some (rests (history s)) ++ pTokens s /\
    (exists before e, seen = before ++ [e] /\ cType c e = EoiTokenType) /\
    exists unused, somes (nexts (history s)) = leaves T ++ unused /\ (length unused <= 1)%nat /\
    forall t, In t (rests (history s)) -> sideToken c t = true \/ cType c t = EoiTokenType.
Proof.
  intros HF H. pose proof (parseFrom_ok c fuel w t0) as P. rewrite H in P. destruct P as (T & []). destruct f_leaves as (unused & H1 & H2).
  exists T, (somes (nexts (history s)) ++ rests (history s)). split; auto. split; auto. split; [rewrite <- kept_visible; auto|]. destruct (f_full HF) as [(N & e & A1 & A2 & A3)|(ss & e & A1 & A2 & A3)].
  - change (clog s) with (history s) in *. split.
    + exists (somes N), e. rewrite A1, A3, somes_app, app_nil_r. auto.
    + exists unused. split; auto. split; auto. rewrite A3. intros t [].
  - change (clog s) with (history s) in *. split.
    + exists (somes (nexts (history s)) ++ ss), e. rewrite A1, app_assoc. auto.
    + exists unused. split; auto. split; auto. rewrite A1. intros t HI. apply in_app_or in HI as [HI|[<-|[]]]; auto.
      rewrite Forall_forall in A2. left. rewrite sideToken_ok. apply A2. auto.
Qed.
(** Without token hooks and ambiguous rules, for a source of tokens: everything visible in it
    is in the tree, save for trailing side tokens. *)
Theorem full_source_is_the_tree (view : Src -> list Tok) eoi fuel w t0 r s :
  sourceOf c view eoi -> unreadOf c view -> quietHooks c -> cTokenHooks c = [] -> gMultiRules g = [] -> cFullSource c = true ->
  (forall t, In t (view (fst w)) -> cType c t <> EoiTokenType) ->
  parseFrom c fuel w t0 = Done r s ->
  exists T trailing, nodeEvents (history s) = trace [] T /\
    filter (visible c) (view (fst w)) = filter (fun t => negb (cType c t =? EoiTokenType)) (leaves T) ++ trailing /\
    (forall t, In t trailing -> sideToken c t = true) /\
    (tablesOk g -> derived RootNode T).
Proof.
  intros HS HU HQ N0 M0 HF HV H. destruct (full_all c view eoi HS HQ N0 M0 HU fuel w t0 r s HF H) as (T & ss & _ & (_ & D) & A & B & C).
  { apply Forall_forall. auto. }
  exists T, ss. split; auto. split; auto. split; [|exact D]. rewrite Forall_forall in C. intros t HI. rewrite sideToken_ok. apply C. auto.
Qed.
End P.
