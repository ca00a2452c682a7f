(** The tree hook builds the tree of the parse (C45). *)
From Coq Require Import ZArith List Bool Lia Arith.
From Verif Require Import Base BaseProofs Grammar Rules Parser ParserSpec ParserProofs ParserInv ParserMain ParserWorld ParserDemo TreeSpec TreeProofs TreeNav TreeNavSpec TreeNavProofs TreeHook TreeHookSpec Prop_Tree TreeHookProofs.
From Verif Require Tree.
Import ListNotations.
Open Scope nat_scope.

Section P.
Context {Tok Src W E Inst R : Type}.
Variable notElement : Z -> E.
Variable c0 : config Tok Src W E Inst R.
Notation c := (withTree notElement c0).
Notation g := (cGrammar c0).
Notation history s := (rev (pLog s)).
Notation hooked := (hookedIn (cNodeHooks c)).
Notation trace := (trace (Tok := Tok) (E := E) (Inst := inst Inst) (R := result R) hooked).
Notation elements s := (snd (snd (pWorld s))).

Lemma parse_ran fuel src w st t0 r s : parseFrom c fuel (src, (w, st)) t0 = Done r s -> ran c0 st (history s) (elements s).
Proof.
  intros H. unfold parseFrom in H. pose proof (hs_start c (src, (w, st)) t0) as H0. destruct (start c (src, (w, st)) t0) as [u s1|e s1| |s1]; cbn [bind hs] in *; try discriminate.
  apply hist_ran in H0. destruct H0 as (l0 & L0 & R0). cbn in L0, R0. unfold parse in H. pose proof (hs_parseLoop c fuel true None s1) as H1.
  destruct (parseLoop c fuel true None s1) as [[used t] s2|e s2| |s2]; cbn [bind hs] in *; try discriminate. apply hist_ran in H1. destruct H1 as (l1 & L1 & R1). cbn in L1, R1.
  assert (R2 : ran c0 st (history s2) (elements s2)) by (rewrite L1, L0; apply ran_app; eauto). clear L0 L1 R0 R1.
  destruct (if used then Some s2 else _) as [s3|] eqn:E3; [|discriminate].
  assert (S3 : pLog s3 = pLog s2 /\ elements s3 = elements s2).
  { destruct used; [injection E3 as <-; auto|]. destruct t as [t|]; [|discriminate]. injection E3 as <-. destruct (_ =? _)%Z; auto. }
  destruct S3 as (S3 & S4). rewrite <- S3, <- S4 in R2. destruct (_ && _).
  - pose proof (hs_restLoop c fuel s3) as H2. destruct (restLoop c fuel s3) as [u' s4|e s4| |s4]; cbn [bind hs] in *; try discriminate. injection H as _ <-. apply hist_ran in H2. destruct H2 as (l2 & L2 & R3). cbn in L2, R3. rewrite L2. apply ran_app. eauto.
  - injection H as _ <-. exact R2.
Qed.

(** With the tree hook for any node the result of a parse is an element that stands alone; it is the tree reported to hooks (a derivation of
    the grammar, C27), so its tokens in document order are the tokens the parser has taken; links of all elements are consistent, and elements
    made before have not been touched. *)
Theorem tree_hook_builds_tree fuel src w st F t0 r s : consistent (sHeap st) F -> parseFrom c fuel (src, (w, st)) t0 = Done r s ->
  exists T t F' unused, let st' := elements s in let h := sHeap st' in
    nodeEvents (history s) = trace [] T /\
    r = Some (Elem (root t)) /\ consistent h F' /\ is_tree F' t /\ In [root t] (tops F') /\ mirrors st' T t /\
    map (sTok st') (tokens h (pre t)) = map Some (leaves T) /\
    somes (nexts (history s)) = leaves T ++ unused /\ length unused <= 1 /\
    (pLost s = false -> tablesOk g -> derived (cType c0) (cText c0) (cUpper c0) g RootNode T) /\
    (forall y, y < Tree.size (sHeap st) -> kids F' y = kids F y /\ Tree.isNode h y = Tree.isNode (sHeap st) y /\ sName st' y = sName st y /\ sTok st' y = sTok st y).
Proof.
  intros C H. pose proof (parse_ran fuel src w st t0 r s H) as RN. assert (V : zget (gNodes g) RootNode <> None).
  { unfold parseFrom, start, pushNode in H. cbn [handleNodeSides pStack bind cGrammar withTree] in H. intros N. rewrite N in H. discriminate H. }
  pose proof (parseFrom_ok c fuel (src, (w, st)) t0) as P. rewrite H in P. destruct P as (T & [OK0 RT0 EV RS (unused & LU & LV) _ D _ _ _ _]). destruct T as [k|node t1 hooks results ks]; [destruct RT0|]. destruct RT0 as (-> & ->).
  apply ran_nodes in RN. change (history s) with (clog s) in RN. rewrite EV in RN. rewrite trace_Node in RN. cbn [calls callsR app] in RN. rewrite app_nil_r in RN.
  pose proof (node_built notElement c0 (Node RootNode (Some t0) hooks results ks)) as B. cbn [nodeBuilt] in B. destruct (B st F (elements s) C V OK0 RN) as (rest & rr & F' & ts & -> & _ & -> & C' & G & TP & IT & M & _).
  exists (Node RootNode (Some t0) (Some (TreeInst (Tree.size (sHeap st))) :: rest) (Some (Elem (Tree.size (sHeap st))) :: rr) ks), (RT (Tree.size (sHeap st)) ts), F', unused.
  split; [exact EV|]. split; [apply RS; reflexivity|]. split; [exact C'|]. split; [exact IT|]. split; [exact TP|]. split; [exact M|]. split; [apply mirrors_tokens; exact M|]. split; [exact LV|]. split; [exact LU|]. split; [exact D|].
  intros y Y. split; [apply (gr_kids _ _ _ _ _ G); [exact Y|discriminate]|]. apply (gr_data _ _ _ _ _ G y Y).
Qed.
(** A walk over the result visits these tokens in this order. *)
Theorem tree_hook_walk fuel src w st F t0 r s : consistent (sHeap st) F -> parseFrom c fuel (src, (w, st)) t0 = Done r s ->
  exists x T visited, r = Some (Elem x) /\ nodeEvents (history s) = trace [] T /\
    ends (fun n => option_map snd (walk (sHeap (elements s)) record_all n (Some x) WalkLtr [])) visited /\
    map (sTok (elements s)) (tokens (sHeap (elements s)) visited) = map Some (leaves T).
Proof.
  intros C H. destruct (tree_hook_builds_tree fuel src w st F t0 r s C H) as (T & t & F' & unused & A1 & A2 & A3 & A4 & A5 & A6 & A7 & _). exists (root t), T, (pre t). split; [exact A2|]. split; [exact A1|]. split; [|exact A7].
  apply (walk_visits_each_once _ F'); auto. apply (c_exists _ _ A3). left. apply in_concat. exists [root t]. split; [exact A5|left; reflexivity].
Qed.
End P.

Module Example1.
Definition st0 : store dTok := mkStore heap0 (fun _ => 0%Z) (fun _ => None).
Definition cfg := withTree (fun n => n) (demo dGrammar [] true true).
(** "a b c d" with spaces *)
Definition input : list dTok := [(0, 1); (4, 2); (1, 3); (2, 4); (4, 5); (3, 6); (4, 7)]%Z.
Example start_ok : consistent (sHeap st0) forest0.
Proof. apply consistent_nodes_ok. exact OK0. Qed.
(** the root (element 0) has children 1, 2, 3 and the node 4; that one has children 5, 6, 7 *)
Example parses : exists s, parseFrom cfg 100 (input, (0%Z, st0)) (-1, 0)%Z = Done (Some (Elem 0)) s /\
  let st := snd (snd (pWorld s)) in
  map (fun x => (Tree.isNode (sHeap st) x, sName st x, sTok st x, Tree.parent (sHeap st) x, Tree.next (sHeap st) x)) (seq 0 (Tree.size (sHeap st))) =
  [(true, 0%Z, Some (-1, 0)%Z, None, None); (false, 0%Z, Some (0, 1)%Z, Some 0, Some 2); (false, 0%Z, Some (4, 2)%Z, Some 0, Some 3); (false, 0%Z, Some (1, 3)%Z, Some 0, Some 4);
   (true, 1%Z, Some (2, 4)%Z, Some 0, None); (false, 0%Z, Some (2, 4)%Z, Some 4, Some 6); (false, 0%Z, Some (4, 5)%Z, Some 4, Some 7); (false, 0%Z, Some (3, 6)%Z, Some 4, None)].
Proof. eexists. split; [vm_compute; reflexivity|]. vm_compute. reflexivity. Qed.
End Example1.
Print Assumptions tree_hook_builds_tree.
Print Assumptions tree_hook_walk.
