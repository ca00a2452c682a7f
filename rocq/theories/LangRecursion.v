(** Search for left recursion. *)
From Coq Require Import ZArith List Bool Lia Sorted Relations Permutation.
From Verif Require Import Base BaseProofs Grammar LangBuild LangSpec LangProofs LangFrame LangComplete LangTotal LangDrop LangNodes LangNodesSpec LangNodesProofs LangFirst LangHeads.
Import ListNotations.
Open Scope Z_scope.

(** ** Rules of the first states of nodes *)
Lemma nodes_keep firsts defs : (forall d, In d defs -> written d) -> forall p fs p', buildNodes firsts defs p = Some (fs, p') ->
  zlen (sts p) <= zlen (sts p') /\ (forall q, q < zlen (sts p) -> zget (sts p') q = zget (sts p) q).
Proof.
  induction defs as [|d defs IH]; intros W p fs p' H; cbn [buildNodes] in H.
  - injection H as <- <-. split; [lia|reflexivity].
  - destruct (addState p) as (f, p1) eqn:A. ob H. rename x into p2. ob H. destruct x as (fs', p3). injection H as <- <-.
    apply addState_spec in A. destruct A as (-> & A2 & A3 & A4 & _).
    assert (LV : live p1 (zlen (sts p))) by (unfold live; pose proof (zlen_nonneg (sts p)); lia).
    pose proof (build_zlen _ _ _ _ _ _ (W d (or_introl eq_refl)) H0) as Z1.
    pose proof (build_keeps _ _ (W d (or_introl eq_refl)) _ _ _ _ H0 LV) as K1.
    destruct (IH (fun d' D => W d' (or_intror D)) _ _ _ H1) as (Z3 & K3).
    split; [lia|]. intros q Q. rewrite K3 by lia. rewrite K1 by lia. apply A3. lia.
Qed.
Lemma nodes_heads firsts defs : (forall d, In d defs -> written d) -> forall p fs p', buildNodes firsts defs p = Some (fs, p') -> okP p ->
  length fs = length defs /\ (forall f, In f fs -> live p' f) /\
  forall i d f, zget defs i = Some d -> zget fs i = Some f ->
    (forall r, has p' f r -> lead firsts d r \/ bypass r) /\ (forall r, lead firsts d r -> 0 <= rToken r -> exists r', has p' f r' /\ alike r r').
Proof.
  induction defs as [|d defs IH]; intros W p fs p' H O; cbn [buildNodes] in H.
  - injection H as <- <-. split; [reflexivity|]. split; [intros f []|]. intros i d f G. apply zget_Some_inv in G. unfold zlen in G. cbn in G. lia.
  - destruct (addState p) as (f, p1) eqn:A. ob H. rename x into p2. ob H. destruct x as (fs', p3). injection H as <- <-.
    assert (O1 : okP p1) by (eapply addState_ok, A; exact O). apply addState_spec in A. destruct A as (-> & A2 & A3 & A4 & _).
    assert (LV : live p1 (zlen (sts p))) by (unfold live; pose proof (zlen_nonneg (sts p)); lia).
    pose proof (W d (or_introl eq_refl)) as Wd. pose proof (build_zlen _ _ _ _ _ _ Wd H0) as Z1.
    destruct (build_bothRel _ _ _ _ _ _ Wd H0 O1) as (O2 & _).
    destruct (nodes_keep firsts defs (fun d' D => W d' (or_intror D)) _ _ _ H1) as (Z3 & K3).
    destruct (IH (fun d' D => W d' (or_intror D)) _ _ _ H1 O2) as (L3 & LV3 & X3).
    split; [cbn; lia|]. split; [intros f [<-|F]; [unfold live in *; lia|apply LV3, F]|].
    intros i d' f GD GF. unfold zget in GD, GF. destruct (i <? 0) eqn:NI; [discriminate|]. destruct (Z.to_nat i) as [|n] eqn:EI; cbn [nth_error] in GD, GF.
    + injection GD as <-. injection GF as <-. destruct (build_heads firsts d Wd _ _ _ _ H0 O1 LV) as (M1 & M2).
      assert (ES : zget (sts p3) (zlen (sts p)) = zget (sts p2) (zlen (sts p))) by (apply K3; unfold live in LV; lia). split.
      * intros r X. apply (has_same p2 p3 _ r ES) in X. destruct (M1 r X) as [(e & Ge & Y)|Y]; [|exact Y]. rewrite A4 in Ge. injection Ge as <-. destruct Y.
      * intros r X P. destruct (M2 r X P) as (r' & Y & AL). exists r'. split; [apply (has_same p2 p3 _ r' ES), Y|exact AL].
    + apply (X3 (Z.of_nat n) d' f); unfold zget; destruct (Z.ltb_spec (Z.of_nat n) 0); try lia; rewrite Nat2Z.id; assumption.
Qed.
Lemma has_rules p i r : has p i r <-> exists e, zget (sts p) i = Some e /\ In r (allRules e).
Proof. reflexivity. Qed.

(** ** The search *)
Section Search.
Variable fs : list Z.
Variable states : list entry.
(** nodes of the rules of the first state *)
Definition edge (i j : Z) : Prop := exists f e r, zget fs i = Some f /\ zget states f = Some e /\ In r (allRules e) /\ rNode r = j /\ j <> SameNode.
Hypothesis FS : forall i, 0 <= i < zlen fs -> exists f e, zget fs i = Some f /\ zget states f = Some e.
Hypothesis ER : forall i j, edge i j -> 0 <= j < zlen fs.
Fixpoint anyRecursive (fuel : nat) (visited : list Z) (rs : list rule) : outcome bool :=
  match rs with
  | [] => Good false
  | r :: rs' =>
      if rNode r =? SameNode then anyRecursive fuel visited rs'
      else if smem (rNode r) visited then Good true
      else obnd (ntIsRecursive fuel fs states (rNode r) visited) (fun b => if b then Good true else anyRecursive fuel visited rs')
  end.
Lemma ntIsRecursive_S fuel i visited f e : zget fs i = Some f -> zget states f = Some e ->
  ntIsRecursive (S fuel) fs states i visited = anyRecursive fuel (sadd i visited) (allRules e).
Proof.
  intros A B. cbn [ntIsRecursive]. rewrite A. cbn [orCrash obnd]. rewrite B. cbn [orCrash obnd]. generalize (allRules e). induction l as [|r l IH]; [reflexivity|]. cbn [anyRecursive].
  destruct (rNode r =? SameNode); [exact IH|]. destruct (smem (rNode r) (sadd i visited)); [reflexivity|]. destruct (ntIsRecursive fuel fs states (rNode r) (sadd i visited)) as [[|]| | |]; cbn [obnd]; auto.
Qed.
Lemma rt_t i j : clos_refl_trans Z edge i j -> i = j \/ clos_trans Z edge i j.
Proof. induction 1 as [i j E|i|i j k _ [->|A] _ [<-|B]]; [right; constructor; exact E|left; reflexivity|left; reflexivity|right; exact B|right; exact A|right; eapply t_trans; eassumption]. Qed.
Lemma t_rt_t i j k : clos_trans Z edge i j -> clos_refl_trans Z edge j k -> clos_trans Z edge i k.
Proof. intros A B. destruct (rt_t _ _ B) as [<-|C]; [exact A|]. eapply t_trans; eassumption. Qed.
Lemma rt_t_t i j k : clos_refl_trans Z edge i j -> clos_trans Z edge j k -> clos_trans Z edge i k.
Proof. intros B A. destruct (rt_t _ _ B) as [<-|C]; [exact A|]. eapply t_trans; eassumption. Qed.
Definition cyclic (i : Z) : Prop := exists j, clos_refl_trans Z edge i j /\ clos_trans Z edge j j.

Lemma search_sound fuel : forall i visited, (forall v, In v visited -> clos_refl_trans Z edge v i) -> ntIsRecursive fuel fs states i visited = Good true -> cyclic i.
Proof.
  induction fuel as [|fuel IH]; intros i visited V H; [discriminate|].
  destruct (zget fs i) as [f|] eqn:A; [|cbn [ntIsRecursive] in H; rewrite A in H; discriminate].
  destruct (zget states f) as [e|] eqn:B; [|cbn [ntIsRecursive] in H; rewrite A in H; cbn [orCrash obnd] in H; rewrite B in H; discriminate].
  rewrite (ntIsRecursive_S fuel i visited f e A B) in H.
  assert (V' : forall v, In v (sadd i visited) -> clos_refl_trans Z edge v i). { intros v X. apply sadd_In in X. destruct X as [->|X]; [apply rt_refl|apply V, X]. }
  assert (E : forall r, In r (allRules e) -> rNode r <> SameNode -> edge i (rNode r)). { intros r R N. exists f, e, r. auto. }
  revert H E. generalize (allRules e). induction l as [|r l IL]; intros H E; cbn [anyRecursive] in H; [discriminate|].
  destruct (Z.eqb_spec (rNode r) SameNode) as [SN|SN]; [apply IL; [exact H|intros; apply E; [right|]; assumption]|]. pose proof (E r (or_introl eq_refl) SN) as ED.
  destruct (smem (rNode r) (sadd i visited)) eqn:M.
  - apply smem_In in M. exists i. split; [apply rt_refl|]. eapply t_rt_t; [apply t_step, ED|apply V', M].
  - destruct (ntIsRecursive fuel fs states (rNode r) (sadd i visited)) as [[|]| | |] eqn:R; cbn [obnd] in H; try discriminate.
    + destruct (IH (rNode r) (sadd i visited)) as (j & P & Q); [|exact R|].
      * intros v X. eapply rt_trans; [apply V', X|apply rt_step, ED].
      * exists j. split; [eapply rt_trans; [apply rt_step, ED|exact P]|exact Q].
    + apply IL; [exact H|intros; apply E; [right|]; assumption].
Qed.
Lemma search_step fuel i visited : ntIsRecursive (S fuel) fs states i visited = Good false ->
  forall j, edge i j -> ~ In j (sadd i visited) /\ ntIsRecursive fuel fs states j (sadd i visited) = Good false.
Proof.
  intros H j (f & e & r & A & B & R & <- & N). rewrite (ntIsRecursive_S fuel i visited f e A B) in H. revert H R. generalize (allRules e). induction l as [|r' l IL]; intros H R; [contradiction|].
  cbn [anyRecursive] in H. destruct R as [->|R].
  - destruct (Z.eqb_spec (rNode r) SameNode); [contradiction|]. destruct (smem (rNode r) (sadd i visited)) eqn:M; [discriminate|]. split; [intros X; apply smem_In in X; congruence|].
    destruct (ntIsRecursive fuel fs states (rNode r) (sadd i visited)) as [[|]| | |]; cbn [obnd] in H; try discriminate. reflexivity.
  - destruct (rNode r' =? SameNode); [apply IL; assumption|]. destruct (smem (rNode r') (sadd i visited)); [discriminate|].
    destruct (ntIsRecursive fuel fs states (rNode r') (sadd i visited)) as [[|]| | |]; cbn [obnd] in H; try discriminate. apply IL; assumption.
Qed.
Lemma search_complete fuel : forall i visited, ntIsRecursive fuel fs states i visited = Good false -> forall j, clos_trans Z edge i j -> ~ In j (sadd i visited).
Proof.
  induction fuel as [|fuel IH]; intros i visited H j P; [discriminate|]. apply clos_trans_t1n in P. inversion P as [? E|k ? E P']; subst.
  - apply (search_step _ _ _ H), E.
  - destruct (search_step _ _ _ H k E) as (_ & H'). apply clos_t1n_trans in P'. intros X. apply (IH k (sadd i visited) H' j P'). apply sadd_In. right. exact X.
Qed.
Lemma search_follow fuel : forall i visited, ntIsRecursive fuel fs states i visited = Good false -> forall j, clos_refl_trans Z edge i j ->
  exists fuel' visited', ntIsRecursive fuel' fs states j visited' = Good false.
Proof.
  intros i visited H j P. apply clos_rt_rt1n in P. revert fuel visited H. induction P as [i|i k j E P IH]; intros fuel visited H; [eauto|].
  destruct fuel as [|fuel]; [discriminate|]. destruct (search_step _ _ _ H k E) as (_ & H'). eapply IH, H'.
Qed.
Lemma search_false fuel i visited : ntIsRecursive fuel fs states i visited = Good false -> ~ cyclic i.
Proof.
  intros H (j & P & Q). destruct (search_follow _ _ _ H j P) as (fuel' & visited' & H'). apply (search_complete _ _ _ H' j Q). apply sadd_In. left. reflexivity.
Qed.
Lemma search_total fuel : forall i visited, 0 <= i < zlen fs -> StronglySorted Z.lt visited -> (forall v, In v visited -> 0 <= v < zlen fs) -> ~ In i visited -> (length fs - length visited < fuel)%nat ->
  exists b, ntIsRecursive fuel fs states i visited = Good b.
Proof.
  induction fuel as [|fuel IH]; intros i visited RI S V N F; [lia|]. destruct (FS i RI) as (f & e & A & B). rewrite (ntIsRecursive_S fuel i visited f e A B).
  assert (S' : StronglySorted Z.lt (sadd i visited)) by (apply sadd_sorted, S).
  assert (V' : forall v, In v (sadd i visited) -> 0 <= v < zlen fs). { intros v X. apply sadd_In in X. destruct X as [->|X]; [exact RI|apply V, X]. }
  assert (L : (length (i :: visited) <= length (sadd i visited))%nat). { apply NoDup_incl_length; [constructor; [exact N|apply sorted_nodup, S]|]. intros x [->|X]; apply sadd_In; auto. }
  assert (L' : (length (sadd i visited) <= length fs)%nat). { pose proof (NoDup_incl_length (sorted_nodup _ S') (l' := indexes (length fs))) as Y. unfold indexes in Y at 2. rewrite map_length, seq_length in Y. apply Y. intros x X. apply indexes_In, V', X. }
  cbn [length] in L.
  assert (E : forall r, In r (allRules e) -> rNode r <> SameNode -> 0 <= rNode r < zlen fs). { intros r R NS. apply (ER i). exists f, e, r. auto. }
  revert E. generalize (allRules e). induction l as [|r l IL]; intros E; cbn [anyRecursive]; [eauto|].
  specialize (IL (fun r' R => E r' (or_intror R))). destruct (Z.eqb_spec (rNode r) SameNode) as [SN|SN]; [exact IL|]. destruct (smem (rNode r) (sadd i visited)) eqn:M; [eauto|].
  destruct (IH (rNode r) (sadd i visited)) as (b & R); [apply E; [left; reflexivity|exact SN]|exact S'|exact V'|intros X; apply smem_In in X; congruence|lia|]. rewrite R. cbn [obnd]. destruct b; [eauto|exact IL].
Qed.
Lemma search_spec fuel i : 0 <= i < zlen fs -> (length fs < fuel)%nat -> exists b, ntIsRecursive fuel fs states i [] = Good b /\ (b = true <-> cyclic i).
Proof.
  intros R F. destruct (search_total fuel i []) as (b & E); [exact R|constructor|intros v []|intros []|cbn; lia|]. exists b. split; [exact E|]. destruct b; split; intros H; try discriminate; try reflexivity.
  - eapply search_sound; [|exact E]. intros v [].
  - destruct (search_false _ _ _ E H).
Qed.
Lemma recursions_spec fuel : (length fs < fuel)%nat ->
  (findRecursions fuel fs states = Good tt /\ forall i, 0 <= i < zlen fs -> ~ cyclic i) \/
  (exists ns, findRecursions fuel fs states = Bad (ERecursion ns) /\ ns <> [] /\ StronglySorted Z.lt ns /\ forall i, In i ns <-> 0 <= i < zlen fs /\ cyclic i).
Proof.
  intros F. unfold findRecursions.
  assert (X : forall l, (forall i, In i l -> 0 <= i < zlen fs) -> StronglySorted Z.lt l -> exists ns, recursiveNodes fuel fs states l = Good ns /\ StronglySorted Z.lt ns /\ forall i, In i ns <-> In i l /\ cyclic i).
  { induction l as [|i l IH]; intros R S; cbn [recursiveNodes].
    - exists []. split; [reflexivity|]. split; [constructor|]. cbn. tauto.
    - destruct (search_spec fuel i (R i (or_introl eq_refl)) F) as (b & E & C). rewrite E. cbn [obnd]. inversion S as [|? ? S' FA]; subst.
      destruct (IH (fun j J => R j (or_intror J)) S') as (ns & E' & SN & IN). rewrite E'. cbn [obnd]. rewrite Forall_forall in FA. destruct b.
      + exists (i :: ns). split; [reflexivity|]. split; [constructor; [exact SN|apply Forall_forall; intros j J; apply FA, IN, J]|]. intros j. cbn [In]. rewrite IN. intuition (subst; auto).
      + exists ns. split; [reflexivity|]. split; [exact SN|]. intros j. cbn [In]. rewrite IN. split; [tauto|]. intros [[->|J] CJ]; [|auto]. apply C in CJ. discriminate. }
  destruct (X (indexes (length fs))) as (ns & E & SN & IN); [intros i I; apply indexes_In, I|apply indexes_sorted|]. rewrite E. cbn [obnd].
  assert (IN' : forall i, In i ns <-> 0 <= i < zlen fs /\ cyclic i). { intros i. rewrite IN, indexes_In. reflexivity. }
  destruct ns as [|n ns].
  - left. split; [reflexivity|]. intros i R C. destruct (proj2 (IN' i) (conj R C)).
  - right. exists (n :: ns). split; [reflexivity|]. split; [discriminate|]. split; [exact SN|exact IN'].
Qed.
End Search.

(** ** Strings of tokens *)
Scheme produces_mind := Minimality for produces Sort Prop
with producesSeq_mind := Minimality for producesSeq Sort Prop.
Combined Scheme produces_both from produces_mind, producesSeq_mind.
Section Strings.
Variable defs : list (option chunk).
Hypothesis D : described defs.
Lemma optional_produces : (forall c, written c -> isOptional c = true -> produces defs c []).
Proof.
  assert (X : forall c, written c -> isOptional c = true -> produces defs c []); [|exact X].
  induction c as [t| |i|opt rep l IH|l IH] using chunk_nest; intros W O; try discriminate.
  - inversion W as [| | | |? ? ? NE RO WL]; subst. cbn [isOptional] in O. apply orb_true_iff in O. destruct O as [->|O]; [apply P_never|]. apply P_once. clear NE W. induction l as [|c l IL]; [constructor|].
    cbn [forallb] in O. apply andb_true_iff in O. destruct O as (O1 & O2). change (@nil Z) with (@nil Z ++ @nil Z). constructor; [apply IH; [left; reflexivity|apply WL; left; reflexivity|exact O1]|].
    apply IL; [intros; apply IH; [right; assumption|assumption|assumption]|exact O2|intros; apply WL; right; assumption].
  - inversion W as [| | |? NE WL|]; subst. cbn [isOptional] in O. apply existsb_exists in O. destruct O as (c & C & O). eapply P_variant; [exact C|apply IH; auto].
Qed.

Lemma produces_empty : neverEmpty defs ->
  (forall c w, produces defs c w -> w = [] -> isOptional c = true) /\ (forall l w, producesSeq defs l w -> w = [] -> forallb isOptional l = true).
Proof.
  intros NE. apply produces_both; try discriminate.
  - intros i d w G P _ ->. destruct (NE i). eapply P_nested; eassumption.
  - intros l c w C _ IH E. cbn [isOptional]. apply existsb_exists. exists c. auto.
  - intros opt rep l w _ IH E. cbn [isOptional]. rewrite (IH E). apply orb_true_r.
  - intros rep l _. reflexivity.
  - intros opt l w v _ IH _ _ E. apply app_eq_nil in E. destruct E as (-> & ->). cbn [isOptional]. rewrite (IH eq_refl). apply orb_true_r.
  - reflexivity.
  - intros c l w v _ IH _ IH' E. apply app_eq_nil in E. destruct E as (-> & ->). cbn [forallb]. rewrite (IH eq_refl), (IH' eq_refl). reflexivity.
Qed.
Lemma produces_first : neverEmpty defs ->
  (forall c w, produces defs c w -> forall t v, w = t :: v -> exists x, heads c x /\ tokenOf (firstToken defs) x t) /\
  (forall l w, producesSeq defs l w -> forall t v, w = t :: v -> exists x, headsSeq l x /\ tokenOf (firstToken defs) x t).
Proof.
  intros NE. apply produces_both; try discriminate.
  - intros k t v E. injection E as <- _. exists (STok k). split; [constructor|reflexivity].
  - intros t v E. injection E as <- _. exists SEoi. split; [constructor|reflexivity].
  - intros i d w G _ IH t v E. exists (SNode i 0). split; [constructor|]. apply (firstToken_unfold defs D i d t G). eapply IH, E.
  - intros l c w C _ IH t v E. destruct (IH t v E) as (x & H & T). exists x. split; [econstructor; eassumption|exact T].
  - intros opt rep l w _ IH t v E. destruct (IH t v E) as (x & H & T). exists x. split; [constructor; exact H|exact T].
  - intros opt l w v _ IH _ IH' t u E. destruct w as [|y w]; [eapply IH', E|]. injection E as -> _. destruct (IH t w eq_refl) as (x & H & T). exists x. split; [constructor; exact H|exact T].
  - intros c l w v P IH _ IH' t u E. destruct w as [|y w].
    + destruct (IH' t u E) as (x & H & T). exists x. split; [|exact T]. apply HS_later; [|exact H]. apply (proj1 (produces_empty NE) c [] P eq_refl).
    + injection E as -> _. destruct (IH t w eq_refl) as (x & H & T). exists x. split; [apply HS_here, H|exact T].
Qed.
Lemma produces_some : productive defs -> forall c, written c -> (forall j, mentions c j -> 0 <= j < zlen defs) -> exists w, produces defs c w.
Proof.
  intros PR. induction c as [t| |i|opt rep l IH|l IH] using chunk_nest; intros W M.
  - eexists. constructor.
  - eexists. constructor.
  - apply PR, M. constructor.
  - inversion W as [| | | |? ? ? NE RO WL]; subst. assert (X : exists w, producesSeq defs l w).
    { assert (M' : forall c j, In c l -> mentions c j -> 0 <= j < zlen defs) by (intros c j C MJ; apply M; econstructor; eassumption). clear NE W M.
      induction l as [|c l IL]; [eexists; constructor|]. destruct (IH c (or_introl eq_refl) (WL c (or_introl eq_refl)) (fun j => M' c j (or_introl eq_refl))) as (w & P).
      destruct IL as (v & P'); [intros; apply IH; [right|..]; auto|intros; apply WL; right; auto|intros; eapply M'; [right|]; eassumption|]. eexists. constructor; eassumption. }
    destruct X as (w & P). exists w. apply P_once, P.
  - inversion W as [| | |? NE WL|]; subst. destruct l as [|c l]; [contradiction|]. destruct (IH c (or_introl eq_refl) (WL c (or_introl eq_refl))) as (w & P).
    { intros j MJ. apply M. econstructor; [left; reflexivity|exact MJ]. }
    exists w. eapply P_variant; [left; reflexivity|exact P].
Qed.
Lemma first_produces_chunk : productive defs -> forall t,
  (forall c x, heads c x -> written c -> (forall j, mentions c j -> 0 <= j < zlen defs) -> tokenOf (fun j t => exists w, produces defs (CNode j) (t :: w)) x t -> exists w, produces defs c (t :: w)) /\
  (forall l x, headsSeq l x -> (forall c, In c l -> written c) -> (forall c j, In c l -> mentions c j -> 0 <= j < zlen defs) -> tokenOf (fun j t => exists w, produces defs (CNode j) (t :: w)) x t -> exists w, producesSeq defs l (t :: w)).
Proof.
  intros PR t. apply heads_both.
  - intros k _ _ T. cbn in T. subst k. exists []. constructor.
  - intros _ _ T. cbn in T. subst t. exists []. constructor.
  - intros i u _ _ T. exact T.
  - intros l c x C _ IH W M T. inversion W as [| | |? NE WL|]; subst. destruct (IH (WL c C)) as (w & P); [intros j MJ; apply M; econstructor; eassumption|exact T|]. exists w. econstructor; eassumption.
  - intros opt rep l x _ IH W M T. inversion W as [| | | |? ? ? NE RO WL]; subst. destruct (IH WL) as (w & P); [intros c j C MJ; apply M; econstructor; eassumption|exact T|]. exists w. apply P_once, P.
  - intros c l x _ IH W M T. destruct (IH (W c (or_introl eq_refl)) (fun j => M c j (or_introl eq_refl)) T) as (w & P).
    assert (X : exists v, producesSeq defs l v).
    { clear -PR W M. assert (W' : forall c, In c l -> written c) by (intros; apply W; right; assumption). assert (M' : forall c j, In c l -> mentions c j -> 0 <= j < zlen defs) by (intros; eapply M; [right|]; eassumption).
      clear W M. induction l as [|c0 l IL]; [eexists; constructor|]. destruct (produces_some PR c0 (W' c0 (or_introl eq_refl)) (fun j => M' c0 j (or_introl eq_refl))) as (w & P).
      destruct IL as (v & P'); [intros; apply W'; right; auto|intros; eapply M'; [right|]; eassumption|]. eexists. constructor; eassumption. }
    destruct X as (v & P'). exists (w ++ v). apply (PS_cons defs c l (t :: w) v P P').
  - intros c l x O _ IH W M T. destruct IH as (w & P); [intros; apply W; right; auto|intros; eapply M; [right|]; eassumption|exact T|]. exists w. apply (PS_cons defs c l [] (t :: w)); [|exact P].
    apply optional_produces; [apply W; left; reflexivity|exact O].
Qed.
Lemma first_produces : productive defs -> forall i t, firstToken defs i t -> exists w, produces defs (CNode i) (t :: w).
Proof.
  intros PR. induction 1 as [i d t w G S|i d w G S|i d j u w t G S H IH]; pose proof (ds_written _ D _ _ G) as W.
  - destruct (proj1 (first_produces_chunk PR t) d (STok t)) as (v & P); [apply heads_iff; eauto|exact W|intros j M; apply (ds_refers _ D i j); exists d; auto|reflexivity|]. exists v. econstructor; eassumption.
  - destruct (proj1 (first_produces_chunk PR EoiToken) d SEoi) as (v & P); [apply heads_iff; eauto|exact W|intros j M; apply (ds_refers _ D i j); exists d; auto|reflexivity|]. exists v. econstructor; eassumption.
  - destruct (proj1 (first_produces_chunk PR t) d (SNode j u)) as (v & P); [apply heads_iff; eauto|exact W|intros k M; apply (ds_refers _ D i k); exists d; auto|exact IH|]. exists v. econstructor; eassumption.
Qed.

Lemma solid_neverEmpty : (forall i d, defined defs i d -> isOptional d = false) -> neverEmpty defs.
Proof.
  intros SO i P. assert (X : (forall c w, produces defs c w -> w = [] -> isOptional c = true) /\ (forall l w, producesSeq defs l w -> w = [] -> forallb isOptional l = true)).
  { apply produces_both; try discriminate.
    - intros j d w G _ IH ->. pose proof (SO j d G). rewrite (IH eq_refl) in *. discriminate.
    - intros l c w C _ IH E. cbn [isOptional]. apply existsb_exists. exists c. auto.
    - intros opt rep l w _ IH E. cbn [isOptional]. rewrite (IH E). apply orb_true_r.
    - intros rep l _. reflexivity.
    - intros opt l w v _ IH _ _ E. apply app_eq_nil in E. destruct E as (-> & ->). cbn [isOptional]. rewrite (IH eq_refl). apply orb_true_r.
    - reflexivity.
    - intros c l w v _ IH _ IH' E. apply app_eq_nil in E. destruct E as (-> & ->). cbn [forallb]. rewrite (IH eq_refl), (IH' eq_refl). reflexivity. }
  pose proof (proj1 X _ _ P eq_refl) as Y. discriminate.
Qed.
End Strings.
