(** Undefined and unused nodes; sets of first tokens are the least ones. *)
From Coq Require Import ZArith List Bool Lia Sorted Relations Permutation Arith.
From Verif Require Import Base BaseProofs Grammar LangBuild LangSpec LangProofs LangFrame LangComplete LangDrop LangNodes LangNodesSpec LangNodesProofs.
Import ListNotations.
Open Scope Z_scope.

Lemma zget_range {A} (l : list A) i : 0 <= i < zlen l -> exists x, zget l i = Some x.
Proof. intros R. destruct l as [|a l]; [unfold zlen in R; cbn in R; lia|]. exists (nth (Z.to_nat i) (a :: l) a). apply zget_Some, R. Qed.
Lemma zset_spec {A} (l : list A) i x : 0 <= i < zlen l -> exists l', zset l i x = Some l' /\ zlen l' = zlen l /\ (forall j, zget l' j = if j =? i then Some x else zget l j).
Proof.
  intros R. exists (upd l (Z.to_nat i) x). split; [apply zset_Some, R|]. split; [unfold zlen; rewrite upd_length; reflexivity|].
  intros j. unfold zget. destruct (Z.ltb_spec j 0) as [J|J].
  - destruct (Z.eqb_spec j i); [lia|reflexivity].
  - rewrite nth_error_upd by (unfold zlen in R; lia). destruct (Z.eqb_spec j i) as [->|N].
    + rewrite Nat.eqb_refl. reflexivity.
    + destruct (Nat.eqb_spec (Z.to_nat j) (Z.to_nat i)); [lia|reflexivity].
Qed.
Lemma zget_map {A B} (f : A -> B) l i : zget (map f l) i = option_map f (zget l i).
Proof. unfold zget. destruct (i <? 0); [reflexivity|]. apply nth_error_map. Qed.
Lemma indexes_In n i : In i (indexes n) <-> 0 <= i < Z.of_nat n.
Proof.
  unfold indexes. rewrite in_map_iff. split.
  - intros (k & <- & K). apply in_seq in K. lia.
  - intros R. exists (Z.to_nat i). split; [lia|]. apply in_seq. lia.
Qed.
Lemma indexes_sorted n : StronglySorted Z.lt (indexes n).
Proof.
  unfold indexes. generalize 0%nat. induction n as [|n IH]; intros s; cbn [seq map]; constructor; [apply IH|].
  apply Forall_forall. intros x X. apply in_map_iff in X. destruct X as (k & <- & K). apply in_seq in K. lia.
Qed.
Lemma sorted_nodup (l : list Z) : StronglySorted Z.lt l -> NoDup l.
Proof. induction 1 as [|x l S IH F]; constructor; [|exact IH]. intros X. rewrite Forall_forall in F. apply F in X. lia. Qed.
Lemma indexes_nodup n : NoDup (indexes n).
Proof. apply sorted_nodup, indexes_sorted. Qed.
Lemma dependsOn_sorted c : StronglySorted Z.lt (dependsOn c).
Proof.
  assert (X : forall l s, StronglySorted Z.lt s -> StronglySorted Z.lt (depSeq l s)).
  { induction l as [|c0 l IH]; intros s S; [exact S|]. cbn [depSeq]. apply IH, sunion_sorted, S. }
  destruct c; try (repeat constructor; fail); [rewrite depends_group|rewrite depends_var]; apply X; constructor.
Qed.
Lemma items_zlen defs : zlen (map itemOf defs) = zlen defs.
Proof. unfold zlen. rewrite map_length. reflexivity. Qed.

(** ** Undefined nodes *)
Lemma undefined_spec defs order : described defs -> Permutation order (indexes (length defs)) ->
  (findUndefinedNodes order (map itemOf defs) = Good tt /\ forall i, 0 <= i < zlen defs -> exists d, defined defs i d) \/
  (exists ns, findUndefinedNodes order (map itemOf defs) = Bad (EUndefined ns) /\ ns <> [] /\ NoDup ns /\
     forall j, In j ns <-> (exists i, refers defs i j) /\ ~ exists d, defined defs j d).
Proof.
  intros D P. unfold findUndefinedNodes. set (f := fun i : Z => _). set (uns := filter f order).
  assert (I : forall j, In j uns <-> zget defs j = Some None).
  { intros j. unfold uns. rewrite filter_In. unfold f. rewrite zget_map. split.
    - intros (_ & H). destruct (zget defs j) as [[c|]|]; cbn in H; try discriminate. reflexivity.
    - intros H. rewrite H. split; [|reflexivity]. apply (Permutation_in _ (Permutation_sym P)), indexes_In. apply zget_Some_inv in H. exact H. }
  assert (E : forall j, zget defs j = Some None <-> (exists i, refers defs i j) /\ ~ exists d, defined defs j d).
  { intros j. split.
    - intros H. split; [apply (ds_listed _ D), H|]. intros (d & X). unfold defined in X. congruence.
    - intros ((i & R) & N). destruct (zget_range defs j (ds_refers _ D _ _ R)) as ([d|] & G); [|exact G]. destruct N. exists d. exact G. }
  destruct uns as [|u uns'] eqn:U.
  - left. split; [reflexivity|]. intros i R. destruct (zget_range defs i R) as ([d|] & G); [exists d; exact G|]. apply I in G. contradiction.
  - right. exists (u :: uns'). split; [reflexivity|]. split; [discriminate|]. split.
    + rewrite <- U. apply NoDup_filter. apply (Permutation_NoDup (Permutation_sym P)), indexes_nodup.
    + intros j. rewrite I. apply E.
Qed.

(** ** Unused nodes *)
Section Defined.
Variable defs : list (option chunk).
Hypothesis D : described defs.
Hypothesis ALL : forall i, 0 <= i < zlen defs -> exists d, defined defs i d.

Fixpoint depCount (l : list Z) : nat :=
  match l with [] => O | i :: r => (match zget (map itemOf defs) i with Some it => length (iDepends it) | None => O end + depCount r)%nat end.
Lemma depCount_remove x l : NoDup l -> In x l ->
  (depCount (sremove x l) + match zget (map itemOf defs) x with Some it => length (iDepends it) | None => O end = depCount l)%nat.
Proof.
  induction 1 as [|y l N ND IH]; intros X; [contradiction|]. unfold sremove. cbn [filter depCount]. destruct (Z.eqb_spec y x) as [->|NE].
  - cbn [negb]. assert (E : filter (fun y => negb (y =? x)) l = l).
    { clear -N. induction l as [|z l IH]; [reflexivity|]. cbn [filter]. destruct (Z.eqb_spec z x) as [->|NE]; [destruct N; left; reflexivity|]. cbn [negb]. rewrite IH; [reflexivity|]. intros Y. apply N. right. exact Y. }
    rewrite E. lia.
  - cbn [negb depCount]. destruct X as [->|X]; [contradiction|]. specialize (IH X). unfold sremove in IH. lia.
Qed.
Lemma reach_spec fuel : forall queue un,
  StronglySorted Z.lt un -> (forall i, In i un -> 0 <= i < zlen defs) ->
  (forall i, In i queue -> reachable defs i) ->
  (forall i, 0 <= i < zlen defs -> ~ In i un -> reachable defs i) ->
  (forall i j, 0 <= i < zlen defs -> ~ In i un -> refers defs i j -> ~ In j un \/ In j queue) ->
  (~ In 0 un \/ In 0 queue) ->
  (length queue + depCount un < fuel)%nat ->
  exists un', reachLoop fuel (map itemOf defs) queue un = Good un' /\ StronglySorted Z.lt un' /\ forall i, 0 <= i < zlen defs -> (In i un' <-> ~ reachable defs i).
Proof.
  induction fuel as [|fuel IH]; intros queue un S R Q U C Z0 F; [lia|]. cbn [reachLoop]. destruct queue as [|x queue].
  - exists un. split; [reflexivity|]. split; [exact S|]. intros i I.
    assert (X : forall i, reachable defs i -> 0 <= i < zlen defs -> ~ In i un).
    { clear i I. intros i H. unfold reachable in H. apply clos_rt_rtn1 in H. induction H as [|i j E H IHr].
      - intros _. destruct Z0 as [Z0|[]]. exact Z0.
      - intros J. assert (I : 0 <= i < zlen defs). { destruct E as (d & E & _). eapply zget_Some_inv, E. }
        destruct (C i j I (IHr I) E) as [Y|[]]. exact Y. }
    split; [intros Y N; exact (X i N I Y)|]. intros N. destruct (in_dec Z.eq_dec i un) as [Y|Y]; [exact Y|]. destruct N. apply U; assumption.
  - destruct (smem x un) eqn:M; cbn [negb].
    + apply smem_In in M. pose proof (R x M) as RX. destruct (ALL x RX) as (d & G). unfold defined in G.
      pose proof (depCount_remove x un (sorted_nodup _ S) M) as DC. rewrite zget_map, G in *. cbn [option_map] in *. unfold itemOf in DC. cbn [iDepends itemOf] in *.
      apply IH.
      * apply sremove_sorted, S.
      * intros i I. apply sremove_In in I. apply R, I.
      * intros i I. apply in_app_or in I. destruct I as [I|I]; [apply Q; right; exact I|]. eapply rt_trans; [apply Q; left; reflexivity|].
        apply rt_step. exists d. split; [exact G|]. apply depends_spec, I.
      * intros i I N. destruct (Z.eq_dec i x) as [->|NE]; [apply Q; left; reflexivity|]. apply U; [exact I|]. intros Y. apply N, sremove_In. auto.
      * intros i j I N E. destruct (Z.eq_dec i x) as [->|NE].
        -- right. apply in_or_app. right. destruct E as (d' & G' & E). unfold defined in G'. assert (d' = d) by congruence. subst d'. apply depends_spec, E.
        -- destruct (C i j I) as [Y|[->|Y]]; [intros Y; apply N, sremove_In; auto|exact E|left; rewrite sremove_In; tauto|left; rewrite sremove_In; tauto|right; apply in_or_app; left; exact Y].
      * destruct Z0 as [Y|[->|Y]]; [left; rewrite sremove_In; tauto|left; rewrite sremove_In; tauto|right; apply in_or_app; left; exact Y].
      * rewrite app_length. cbn [length] in F. lia.
    + assert (NM : ~ In x un) by (intros Y; apply smem_In in Y; congruence). apply IH; auto.
      * intros i I. apply Q. right. exact I.
      * intros i j I N E. destruct (C i j I N E) as [Y|[->|Y]]; auto.
      * destruct Z0 as [Y|[->|Y]]; auto.
      * cbn [length] in F. lia.
Qed.
Lemma unused_spec : defs <> [] -> exists n, forall fuel, (n <= fuel)%nat ->
  (findUnusedNodes fuel (map itemOf defs) = Good tt /\ forall i, 0 <= i < zlen defs -> reachable defs i) \/
  (exists ns, findUnusedNodes fuel (map itemOf defs) = Bad (EUnused ns) /\ ns <> [] /\ StronglySorted Z.lt ns /\
    forall i, In i ns <-> 0 <= i < zlen defs /\ ~ reachable defs i).
Proof.
  intros NE. exists (2 + depCount (indexes (length (map itemOf defs))))%nat. intros fuel F.
  assert (B : forall i, In i (indexes (length (map itemOf defs))) <-> 0 <= i < zlen defs). { intros i. rewrite indexes_In, map_length. reflexivity. }
  unfold findUnusedNodes.
  assert (ZL : 0 < zlen defs) by (destruct defs; [contradiction|unfold zlen; cbn [length]; lia]).
  destruct (reach_spec fuel [0] (indexes (length (map itemOf defs)))) as (un & E & S & X).
  - apply indexes_sorted.
  - intros i I. apply B, I.
  - intros i [<-|[]]. apply rt_refl.
  - intros i I N. rewrite B in N. contradiction.
  - intros i j I N. rewrite B in N. contradiction.
  - right. left. reflexivity.
  - cbn [length]. lia.
  - assert (RG : forall i, In i un -> 0 <= i < zlen defs).
    { clear -E B. revert un E. generalize (indexes (length (map itemOf defs))) B. intros l B' un E.
      assert (Y : forall fuel q l, reachLoop fuel (map itemOf defs) q l = Good un -> forall i, In i un -> In i l).
      { clear. induction fuel as [|fuel IH]; intros q l E; [discriminate|]. cbn [reachLoop] in E. destruct q as [|x q]; [injection E as ->; auto|].
        destruct (negb (smem x l)); [eapply IH, E|]. destruct (zget (map itemOf defs) x) as [it|]; [|discriminate]. intros i I. eapply IH in I; [|exact E]. apply sremove_In in I. apply I. }
      intros i I. apply B'. eapply Y; eassumption. }
    rewrite E. cbn [obnd]. destruct un as [|u un'] eqn:UE.
    + left. split; [reflexivity|]. intros i I. destruct (in_dec Z.eq_dec i []) as [[]|N].
      assert (Y : forall un', un' = @nil Z -> reachable defs i -> True) by trivial. clear Y.
      (* the set of unreached nodes is empty: the loop visited [i] *)
      assert (V : forall fuel q l, reachLoop fuel (map itemOf defs) q l = Good [] -> (forall k, In k q -> reachable defs k) -> In i l -> reachable defs i).
      { clear -ALL D. induction fuel as [|fuel IH]; intros q l E Q I; [discriminate|]. cbn [reachLoop] in E. destruct q as [|x q]; [injection E as ->; contradiction|].
        destruct (smem x l) eqn:M; cbn [negb] in E; [|eapply IH; [exact E|intros k K; apply Q; right; exact K|exact I]].
        destruct (zget (map itemOf defs) x) as [it|] eqn:G; [|discriminate]. destruct (Z.eq_dec i x) as [->|NE]; [apply Q; left; reflexivity|].
        eapply IH; [exact E| |apply sremove_In; auto]. intros k K. apply in_app_or in K. destruct K as [K|K]; [apply Q; right; exact K|].
        rewrite zget_map in G. destruct (zget defs x) as [[d|]|] eqn:GD; cbn in G; [|injection G as <-; contradiction|discriminate]. injection G as <-. cbn in K.
        eapply rt_trans; [apply Q; left; reflexivity|]. apply rt_step. exists d. split; [exact GD|]. apply depends_spec, K. }
      eapply V; [exact E|intros k [<-|[]]; apply rt_refl|apply B, I].
    + right. exists (u :: un'). split; [reflexivity|]. split; [discriminate|]. split; [exact S|]. intros i. split; [intros I; split; [apply RG, I|apply X; [apply RG, I|exact I]]|].
      intros (I & N). apply X; assumption.
Qed.

(** ** First tokens *)
Lemma firstToken_unfold i d t : defined defs i d -> (firstToken defs i t <-> exists x, heads d x /\ tokenOf (firstToken defs) x t).
Proof.
  intros G. pose proof (ds_written _ D _ _ G) as W. split.
  - intros H. inversion H as [i' d' t' w G' S|i' d' w G' S|i' d' j u w t' G' S H']; subst; unfold defined in *; assert (d' = d) by congruence; subst d'.
    + exists (STok t). split; [apply heads_iff; eauto|reflexivity].
    + exists SEoi. split; [apply heads_iff; eauto|reflexivity].
    + exists (SNode j u). split; [apply heads_iff; eauto|exact H'].
  - intros (x & H & T). apply heads_iff in H; [|exact W]. destruct H as (w & S). destruct x as [k| |j u]; cbn in T; subst.
    + eapply FT_token; eassumption.
    + eapply FT_eoi; eassumption.
    + eapply FT_nested; eassumption.
Qed.
(** universe of tokens *)
Definition universe : list Z := flat_map (fun d => match d with Some c => firstTokens [] c | None => [] end) defs.
Lemma firstToken_universe i t : firstToken defs i t -> In t universe.
Proof.
  assert (X : forall i d x, defined defs i d -> heads d x -> tokenOf (fun _ _ => False) x t -> In t universe).
  { intros k d x G H T. unfold universe. apply in_flat_map. exists (Some d). split; [eapply zget_In, G|]. apply firstTokens_spec. exists x. split; [exact H|].
    destruct x; cbn in *; auto. contradiction. }
  induction 1 as [i d t w G S|i d w G S|i d j u w t G S H IH].
  - eapply (X i d (STok t)); [exact G|apply heads_iff; [eapply ds_written; eassumption|eauto]|reflexivity].
  - eapply (X i d SEoi); [exact G|apply heads_iff; [eapply ds_written; eassumption|eauto]|reflexivity].
  - apply IH. exact X.
Qed.

(** the first tokens of the item, given the nodes it depends on are exact *)
Lemma chunkFirst_exact items i d it : defined defs i d -> iChunk it = Some d -> zlen items = zlen defs ->
  (forall j u t, heads d (SNode j u) -> (In t (firstsOf (map iFirst items) j) <-> firstToken defs j t)) ->
  exists s, chunkFirst items it = Good s /\ forall t, In t s <-> firstToken defs i t.
Proof.
  intros G C L E. unfold chunkFirst. rewrite C. eexists. split; [reflexivity|]. intros t. rewrite firstTokens_spec, (firstToken_unfold i d t G). split.
  - intros (x & H & T). exists x. split; [exact H|]. destruct x as [k| |j u]; cbn in *; auto. apply (E j u t H), T.
  - intros (x & H & T). exists x. split; [exact H|]. destruct x as [k| |j u]; cbn in *; auto. apply (E j u t H), T.
Qed.
Lemma firstsOf_item items j it : zget items j = Some it -> firstsOf (map iFirst items) j = iFirst it.
Proof. intros G. unfold firstsOf. rewrite zget_map, G. reflexivity. Qed.

(** a written definition begins with something *)
Lemma heads_exist c : written c -> exists x, heads c x.
Proof.
  induction c as [t| |i|opt rep l IH|l IH] using chunk_nest; intros W.
  - eexists. constructor.
  - eexists. constructor.
  - exists (SNode i 0). constructor.
  - inversion W as [| | | |? ? ? NE RO WL]; subst. destruct l as [|c l]; [contradiction|]. destruct (IH c (or_introl eq_refl) (WL c (or_introl eq_refl))) as (x & H). exists x. apply H_group, HS_here, H.
  - inversion W as [| | |? NE WL|]; subst. destruct l as [|c l]; [contradiction|]. destruct (IH c (or_introl eq_refl) (WL c (or_introl eq_refl))) as (x & H). exists x. eapply H_var; [left; reflexivity|exact H].
Qed.

Lemma first_some i d : defined defs i d -> (forall j, mentions d j -> exists t, firstToken defs j t) -> exists t, firstToken defs i t.
Proof.
  intros G M. destruct (heads_exist d (ds_written _ D _ _ G)) as (x & H). destruct x as [k| |j u].
  - exists k. apply (firstToken_unfold i d k G). exists (STok k). split; [exact H|reflexivity].
  - exists EoiToken. apply (firstToken_unfold i d _ G). exists SEoi. split; [exact H|reflexivity].
  - destruct (M j) as (t & T); [eapply heads_mentions; [exact H|reflexivity]|]. exists t. apply (firstToken_unfold i d t G). exists (SNode j u). split; [exact H|exact T].
Qed.

(** items in the process: [dn] - nodes whose sets are found *)
Record going (items : list item) (dn : list Z) : Prop := mkGoing {
  go_len : zlen items = zlen defs;
  go_range : forall i, In i dn -> 0 <= i < zlen defs;
  go_chunk : forall i it, zget items i = Some it -> exists d, defined defs i d /\ iChunk it = Some d;
  go_done : forall i it, zget items i = Some it -> (iDepends it = [] <-> In i dn);
  go_left : forall i it d j, zget items i = Some it -> defined defs i d -> mentions d j -> In j (iDepends it) \/ In j dn;
  go_first : forall i it, zget items i = Some it -> In i dn -> forall t, In t (iFirst it) <-> firstToken defs i t;
  go_none : forall i it, zget items i = Some it -> ~ In i dn -> iFirst it = [];
  go_some : forall i, In i dn -> exists t, firstToken defs i t;
  go_sorted : forall i it, zget items i = Some it -> StronglySorted Z.lt (iFirst it)
}.

Lemma going_exact items dn i it d : going items dn -> zget items i = Some it -> defined defs i d -> (forall j, mentions d j -> In j dn) ->
  forall it', iChunk it' = Some d -> exists s, chunkFirst items it' = Good s /\ (forall t, In t s <-> firstToken defs i t) /\ StronglySorted Z.lt s.
Proof.
  intros V G GD M it' C. destruct (chunkFirst_exact items i d it' GD C (go_len _ _ V)) as (s & E & X).
  - intros j u t H. pose proof (heads_mentions d _ H j u eq_refl) as MJ. assert (R : 0 <= j < zlen items). { rewrite (go_len _ _ V). apply (ds_refers _ D i j). exists d. auto. }
    destruct (zget_range items j R) as (jt & GJ). rewrite (firstsOf_item _ _ _ GJ). apply (go_first _ _ V j jt GJ (M j MJ)).
  - exists s. split; [exact E|]. split; [exact X|]. unfold chunkFirst in E. rewrite C in E. injection E as <-. apply firstTokens_sorted.
    intros s S. apply In_zget in S. destruct S as (k & S). rewrite zget_map in S. destruct (zget items k) as [kt|] eqn:GK; cbn in S; [|discriminate]. injection S as <-. eapply (go_sorted _ _ V), GK.
Qed.

(** *** The first loop *)
Definition affected (affects : list (Z * list Z)) (k : Z) : list Z := match mget k affects with Some l => l | None => [] end.
Lemma mget_mput {V} k k' (v : V) m : mget k (mput k' v m) = if k =? k' then Some v else mget k m.
Proof.
  induction m as [|[k0 v0] m IH]; cbn [mput mget]; [reflexivity|]. destruct (Z.eqb_spec k' k0) as [->|N]; cbn [mget].
  - destruct (Z.eqb_spec k k0); reflexivity.
  - destruct (Z.eqb_spec k k0) as [->|N']; [|exact IH]. destruct (Z.eqb_spec k0 k'); [congruence|reflexivity].
Qed.
Lemma affect_step i ds : forall m, NoDup ds ->
  let m' := fold_left (fun m k => mput k (match mget k m with Some l => l ++ [i] | None => [i] end) m) ds m in
  forall k, affected m' k = affected m k ++ (if smem k ds then [i] else []).
Proof.
  induction ds as [|x ds IH]; intros m ND; cbn [fold_left]; intros k.
  - cbn. rewrite app_nil_r. reflexivity.
  - inversion ND as [|? ? N ND']; subst. rewrite IH by exact ND'. unfold affected. rewrite mget_mput. cbn [smem existsb].
    change (existsb (Z.eqb k) ds) with (smem k ds). destruct (Z.eqb_spec k x) as [->|NE]; cbn [orb].
    + destruct (smem x ds) eqn:M; [apply smem_In in M; contradiction|]. rewrite app_nil_r. destruct (mget x m); reflexivity.
    + reflexivity.
Qed.

Definition deps (i : Z) : list Z := match zget defs i with Some (Some d) => dependsOn d | _ => [] end.
Lemma deps_defined i d : defined defs i d -> deps i = dependsOn d.
Proof. unfold defined, deps. intros ->. reflexivity. Qed.
Lemma deps_nodup i : NoDup (deps i).
Proof. unfold deps. destruct (zget defs i) as [[d|]|]; [apply sorted_nodup, dependsOn_sorted|constructor|constructor]. Qed.
Definition emptyb (l : list Z) : bool := match l with [] => true | _ => false end.

Record starting (pre : list Z) (items : list item) (affects : list (Z * list Z)) (queue : list Z) : Prop := mkStarting {
  sg_len : zlen items = zlen defs;
  sg_chunk : forall i it, zget items i = Some it -> exists d, defined defs i d /\ iChunk it = Some d;
  sg_deps : forall i it, zget items i = Some it -> iDepends it = deps i;
  sg_queue : queue = filter (fun i => emptyb (deps i)) pre;
  sg_aff : forall k, affected affects k = filter (fun i => smem k (deps i)) pre;
  sg_first : forall i it, zget items i = Some it -> In i queue -> forall t, In t (iFirst it) <-> firstToken defs i t;
  sg_none : forall i it, zget items i = Some it -> ~ In i queue -> iFirst it = [];
  sg_sorted : forall i it, zget items i = Some it -> StronglySorted Z.lt (iFirst it)
}.
Lemma start_spec : forall order pre items affects queue, (forall i, In i order -> 0 <= i < zlen defs) -> NoDup (pre ++ order) -> starting pre items affects queue ->
  exists items' affects' queue', resolveStart order items affects queue = Good (items', affects', queue') /\ starting (pre ++ order) items' affects' queue'.
Proof.
  induction order as [|i order IH]; intros pre items affects queue R ND V.
  - exists items, affects, queue. rewrite app_nil_r. split; [reflexivity|exact V].
  - pose proof (R i (or_introl eq_refl)) as RI. assert (RI' : 0 <= i < zlen items) by (rewrite (sg_len _ _ _ _ V); exact RI).
    destruct (zget_range items i RI') as (it & G). cbn [resolveStart]. rewrite G. cbn [orCrash obnd].
    assert (NI : ~ In i pre). { apply NoDup_remove_2 in ND. intros X. apply ND, in_or_app. auto. }
    pose proof (sg_deps _ _ _ _ V i it G) as DI. destruct (sg_chunk _ _ _ _ V i it G) as (d & GD & CD).
    replace (pre ++ i :: order) with ((pre ++ [i]) ++ order) in * by (rewrite <- app_assoc; reflexivity).
    destruct (iDepends it) as [|k ds] eqn:ED.
    + destruct (chunkFirst_exact items i d it GD CD (sg_len _ _ _ _ V)) as (s & E & X).
      { intros j u t H. exfalso. apply heads_mentions with (j := j) (u := u) in H; [|reflexivity]. apply depends_spec in H. rewrite <- (deps_defined i d GD), <- DI in H. exact H. }
      rewrite E. cbn [obnd]. unfold setItem. destruct (zset_spec items i (mkItem [] s (iChunk it)) RI') as (items' & Z1 & Z2 & Z3). rewrite Z1. cbn [orCrash obnd].
      apply IH; [intros; apply R; right; assumption|exact ND|]. split.
      * rewrite Z2. apply (sg_len _ _ _ _ V).
      * intros j jt. rewrite Z3. destruct (Z.eqb_spec j i) as [->|NE]; [|apply (sg_chunk _ _ _ _ V)]. intros Y. injection Y as <-. exists d. auto.
      * intros j jt. rewrite Z3. destruct (Z.eqb_spec j i) as [->|NE]; [|apply (sg_deps _ _ _ _ V)]. intros Y. injection Y as <-. exact DI.
      * rewrite filter_app. cbn [filter]. rewrite <- DI. cbn [emptyb]. rewrite (sg_queue _ _ _ _ V). reflexivity.
      * intros k. rewrite filter_app. cbn [filter]. rewrite <- DI. cbn. rewrite app_nil_r. apply (sg_aff _ _ _ _ V).
      * intros j jt. rewrite Z3. destruct (Z.eqb_spec j i) as [->|NE]; intros Y.
        -- injection Y as <-. intros _. exact X.
        -- intros J. apply in_app_or in J. destruct J as [J|[->|[]]]; [|contradiction]. apply (sg_first _ _ _ _ V j jt Y J).
      * intros j jt. rewrite Z3. destruct (Z.eqb_spec j i) as [->|NE]; intros Y N.
        -- destruct N. apply in_or_app. right. left. reflexivity.
        -- apply (sg_none _ _ _ _ V j jt Y). intros J. apply N, in_or_app. auto.
      * intros j jt. rewrite Z3. destruct (Z.eqb_spec j i) as [->|NE]; [|apply (sg_sorted _ _ _ _ V)]. intros Y. injection Y as <-. cbn [iFirst].
        unfold chunkFirst in E. rewrite CD in E. injection E as <-. apply firstTokens_sorted. intros s S. apply In_zget in S. destruct S as (k & S). rewrite zget_map in S.
        destruct (zget items k) as [kt|] eqn:GK; cbn in S; [|discriminate]. injection S as <-. eapply (sg_sorted _ _ _ _ V), GK.
    + apply IH; [intros; apply R; right; assumption|exact ND|]. split.
      * apply (sg_len _ _ _ _ V).
      * apply (sg_chunk _ _ _ _ V).
      * apply (sg_deps _ _ _ _ V).
      * rewrite filter_app. cbn [filter]. rewrite <- DI. cbn [emptyb]. rewrite app_nil_r. apply (sg_queue _ _ _ _ V).
      * intros x. rewrite affect_step; [|rewrite DI; apply deps_nodup]. rewrite filter_app. cbn [filter]. rewrite <- DI, (sg_aff _ _ _ _ V). reflexivity.
      * apply (sg_first _ _ _ _ V).
      * apply (sg_none _ _ _ _ V).
      * apply (sg_sorted _ _ _ _ V).
Qed.
Lemma starting_going order items affects queue : Permutation order (indexes (length defs)) -> starting order items affects queue -> going items queue /\ NoDup queue.
Proof.
  intros P V. assert (IO : forall i, In i order <-> 0 <= i < zlen defs).
  { intros i. split; intros X; [apply (Permutation_in _ P) in X; apply indexes_In in X; exact X|apply (Permutation_in _ (Permutation_sym P)), indexes_In; exact X]. }
  assert (IQ : forall i, In i queue <-> 0 <= i < zlen defs /\ deps i = []).
  { intros i. rewrite (sg_queue _ _ _ _ V), filter_In, IO. destruct (deps i); cbn; intuition discriminate. }
  assert (RG : forall i it, zget items i = Some it -> 0 <= i < zlen defs). { intros i it G. apply zget_Some_inv in G. rewrite (sg_len _ _ _ _ V) in G. exact G. }
  split.
  - split.
    + apply (sg_len _ _ _ _ V).
    + intros i I. apply IQ, I.
    + apply (sg_chunk _ _ _ _ V).
    + intros i it G. rewrite (sg_deps _ _ _ _ V i it G), IQ. pose proof (RG i it G). intuition auto.
    + intros i it d j G GD M. left. rewrite (sg_deps _ _ _ _ V i it G), (deps_defined i d GD). apply depends_spec, M.
    + apply (sg_first _ _ _ _ V).
    + apply (sg_none _ _ _ _ V).
    + intros i I. apply IQ in I. destruct I as (R & E). destruct (ALL i R) as (d & GD). apply (first_some i d GD). intros j M. apply depends_spec in M. rewrite <- (deps_defined i d GD), E in M. contradiction.
    + apply (sg_sorted _ _ _ _ V).
  - rewrite (sg_queue _ _ _ _ V). apply NoDup_filter. apply (Permutation_NoDup (Permutation_sym P)), indexes_nodup.
Qed.

(** *** The queue of found nodes *)
Lemma NoDup_snoc {A} (l : list A) x : NoDup l -> ~ In x l -> NoDup (l ++ [x]).
Proof.
  induction 1 as [|y l N ND IH]; intros X; cbn [app]; [repeat constructor; intros []|]. constructor; [|apply IH; intros Y; apply X; right; exact Y].
  intros Y. apply in_app_or in Y. destruct Y as [Y|[->|[]]]; [contradiction|]. apply X. left. reflexivity.
Qed.
Lemma node_spec k P : In k P -> forall aff items queue, NoDup aff -> going items (P ++ queue) -> NoDup (P ++ queue) ->
  (forall i, In i aff -> 0 <= i < zlen defs /\ forall it, zget items i = Some it -> In k (iDepends it)) ->
  exists items' queue', resolveNode k aff items queue = Good (items', queue') /\ going items' (P ++ queue') /\ NoDup (P ++ queue') /\
    (forall i it, zget items' i = Some it -> exists it0, zget items i = Some it0 /\ forall j, j <> k -> In j (iDepends it0) -> In j (iDepends it)).
Proof.
  intros KP. induction aff as [|i aff IH]; intros items queue NA V ND A.
  - exists items, queue. split; [reflexivity|]. split; [exact V|]. split; [exact ND|]. intros i it G. exists it. auto.
  - destruct (A i (or_introl eq_refl)) as (RI & AI). assert (RI' : 0 <= i < zlen items) by (rewrite (go_len _ _ V); exact RI).
    destruct (zget_range items i RI') as (it & G). cbn [resolveNode]. rewrite G. cbn [orCrash obnd]. specialize (AI it G).
    destruct (go_chunk _ _ V i it G) as (d & GD & CD). inversion NA as [|? ? NI NA']; subst.
    assert (ND' : ~ In i (P ++ queue)). { intros X. apply (go_done _ _ V i it G) in X. rewrite X in AI. exact AI. }
    unfold setItem at 1. destruct (zset_spec items i (mkItem (sremove k (iDepends it)) (iFirst it) (iChunk it)) RI') as (items1 & Z1 & Z2 & Z3). rewrite Z1. cbn [orCrash obnd].
    assert (LEFT : forall j, mentions d j -> In j (sremove k (iDepends it)) \/ In j (P ++ queue)).
    { intros j M. destruct (go_left _ _ V i it d j G GD M) as [X|X]; [|auto]. destruct (Z.eq_dec j k) as [->|NE]; [right; apply in_or_app; auto|]. left. apply sremove_In. auto. }
    destruct (sremove k (iDepends it)) as [|x ds] eqn:DS.
    + (* found *)
      destruct (going_exact items (P ++ queue) i it d V G GD) with (it' := mkItem [] (iFirst it) (iChunk it)) as (s & E & X & SS).
      { intros j M. destruct (LEFT j M) as [[]|Y]. exact Y. }
      { exact CD. }
      assert (E' : chunkFirst items1 (mkItem [] (iFirst it) (iChunk it)) = Good s).
      { unfold chunkFirst in *. cbn [iChunk] in *. rewrite CD in *. f_equal. injection E as <-.
        assert (Y : map iFirst items1 = map iFirst items); [|rewrite Y; reflexivity].
        apply zset_inv in Z1. destruct Z1 as (_ & ->). unfold zget in G. destruct (i <? 0); [discriminate|]. revert G. generalize (Z.to_nat i). clear. induction items as [|y items IH]; intros n G; [destruct n; discriminate|].
        destruct n; cbn in *; [injection G as ->; reflexivity|]. f_equal. apply IH, G. }
      rewrite E'. cbn [obnd]. unfold setItem. assert (RI1 : 0 <= i < zlen items1) by (rewrite Z2; exact RI').
      destruct (zset_spec items1 i (mkItem [] s (iChunk it)) RI1) as (items2 & Y1 & Y2 & Y3). rewrite Y1. cbn [orCrash obnd].
      assert (Y4 : forall j, zget items2 j = if j =? i then Some (mkItem [] s (iChunk it)) else zget items j).
      { intros j. rewrite Y3. destruct (j =? i) eqn:Q; [reflexivity|]. rewrite Z3, Q. reflexivity. }
      destruct (IH items2 (queue ++ [i]) NA') as (items' & queue' & R1 & R2 & R3 & R4).
      * rewrite app_assoc. split.
        -- rewrite Y2, Z2. apply (go_len _ _ V).
        -- intros j J. apply in_app_or in J. destruct J as [J|[<-|[]]]; [apply (go_range _ _ V), J|exact RI].
        -- intros j jt. rewrite Y4. destruct (Z.eqb_spec j i) as [->|NE]; [|apply (go_chunk _ _ V)]. intros Y. injection Y as <-. exists d. auto.
        -- intros j jt. rewrite Y4. destruct (Z.eqb_spec j i) as [->|NE]; intros Y.
           ++ injection Y as <-. cbn. split; [intros _; apply in_or_app; right; left; reflexivity|reflexivity].
           ++ rewrite (go_done _ _ V j jt Y). split; [intros J; apply in_or_app; auto|]. intros J. apply in_app_or in J. destruct J as [J|[->|[]]]; [exact J|contradiction].
        -- intros j jt dj m. rewrite Y4. destruct (Z.eqb_spec j i) as [->|NE]; intros Y GJ M.
           ++ right. apply in_or_app. left. unfold defined in GJ, GD. assert (dj = d) by congruence. subst dj. destruct (LEFT m M) as [[]|Q]. exact Q.
           ++ destruct (go_left _ _ V j jt dj m Y GJ M) as [Q|Q]; [auto|right; apply in_or_app; auto].
        -- intros j jt. rewrite Y4. destruct (Z.eqb_spec j i) as [->|NE]; intros Y.
           ++ injection Y as <-. intros _. exact X.
           ++ intros J. apply in_app_or in J. destruct J as [J|[->|[]]]; [|contradiction]. apply (go_first _ _ V j jt Y J).
        -- intros j jt. rewrite Y4. destruct (Z.eqb_spec j i) as [->|NE]; intros Y N.
           ++ destruct N. apply in_or_app. right. left. reflexivity.
           ++ apply (go_none _ _ V j jt Y). intros J. apply N, in_or_app. auto.
        -- intros j J. apply in_app_or in J. destruct J as [J|[<-|[]]]; [apply (go_some _ _ V), J|]. apply (first_some i d GD). intros j M. apply (go_some _ _ V). destruct (LEFT j M) as [[]|Q]. exact Q.
        -- intros j jt. rewrite Y4. destruct (Z.eqb_spec j i) as [->|NE]; intros Y; [injection Y as <-; exact SS|eapply (go_sorted _ _ V), Y].
      * rewrite app_assoc. apply NoDup_snoc; assumption.
      * intros j J. destruct (A j (or_intror J)) as (RJ & AJ). split; [exact RJ|]. intros jt. rewrite Y4. destruct (Z.eqb_spec j i) as [->|NE]; [contradiction|apply AJ].
      * exists items', queue'. split; [exact R1|]. split; [exact R2|]. split; [exact R3|]. intros j jt J. destruct (R4 j jt J) as (jt0 & J0 & M). rewrite Y4 in J0.
        destruct (Z.eqb_spec j i) as [->|NE]; [|exists jt0; auto]. injection J0 as <-. exists it. split; [exact G|]. intros m MK MI. exfalso.
        assert (Q : In m (sremove k (iDepends it))) by (apply sremove_In; auto). rewrite DS in Q. exact Q.
    + (* still waiting *)
      destruct (IH items1 queue NA') as (items' & queue' & R1 & R2 & R3 & R4).
      * split.
        -- rewrite Z2. apply (go_len _ _ V).
        -- apply (go_range _ _ V).
        -- intros j jt. rewrite Z3. destruct (Z.eqb_spec j i) as [->|NE]; [|apply (go_chunk _ _ V)]. intros Y. injection Y as <-. exists d. auto.
        -- intros j jt. rewrite Z3. destruct (Z.eqb_spec j i) as [->|NE]; [|apply (go_done _ _ V)]. intros Y. injection Y as <-. cbn. split; [discriminate|contradiction].
        -- intros j jt dj m. rewrite Z3. destruct (Z.eqb_spec j i) as [->|NE]; [|apply (go_left _ _ V)]. intros Y GJ M. injection Y as <-. cbn [iDepends].
           unfold defined in GJ, GD. assert (dj = d) by congruence. subst dj. apply LEFT, M.
        -- intros j jt. rewrite Z3. destruct (Z.eqb_spec j i) as [->|NE]; [contradiction|apply (go_first _ _ V)].
        -- intros j jt. rewrite Z3. destruct (Z.eqb_spec j i) as [->|NE]; [|apply (go_none _ _ V)]. intros Y N. injection Y as <-. apply (go_none _ _ V i it G N).
        -- apply (go_some _ _ V).
        -- intros j jt. rewrite Z3. destruct (Z.eqb_spec j i) as [->|NE]; [|apply (go_sorted _ _ V)]. intros Y. injection Y as <-. apply (go_sorted _ _ V i it G).
      * exact ND.
      * intros j J. destruct (A j (or_intror J)) as (RJ & AJ). split; [exact RJ|]. intros jt. rewrite Z3. destruct (Z.eqb_spec j i) as [->|NE]; [contradiction|apply AJ].
      * exists items', queue'. split; [exact R1|]. split; [exact R2|]. split; [exact R3|]. intros j jt J. destruct (R4 j jt J) as (jt0 & J0 & M). rewrite Z3 in J0.
        destruct (Z.eqb_spec j i) as [->|NE]; [|exists jt0; auto]. injection J0 as <-. exists it. split; [exact G|]. intros m MK MI. apply M; [exact MK|]. cbn [iDepends]. rewrite <- DS. apply sremove_In. auto.
Qed.
Lemma loop_spec affects : (forall k, NoDup (affected affects k)) -> forall fuel P queue items, going items (P ++ queue) -> NoDup (P ++ queue) ->
  (forall k, ~ In k P -> forall i, In i (affected affects k) -> 0 <= i < zlen defs /\ forall it, zget items i = Some it -> In k (iDepends it)) ->
  (length defs - length P < fuel)%nat ->
  exists items' P', resolveLoop fuel affects queue items = Good items' /\ going items' P'.
Proof.
  intros NA. induction fuel as [|fuel IH]; intros P queue items V ND L F; [lia|]. cbn [resolveLoop]. destruct queue as [|k queue].
  - exists items, P. split; [reflexivity|]. rewrite app_nil_r in V. exact V.
  - replace (P ++ k :: queue) with ((P ++ [k]) ++ queue) in * by (rewrite <- app_assoc; reflexivity).
    assert (KP : ~ In k P). { rewrite <- app_assoc in ND. apply NoDup_remove_2 in ND. intros X. apply ND, in_or_app. auto. }
    destruct (node_spec k (P ++ [k]) (in_elt k P []) (affected affects k) items queue (NA k) V ND (L k KP)) as (items' & queue' & R1 & R2 & R3 & R4).
    unfold affected in R1. rewrite R1. cbn [obnd].
    assert (PL : (length P < length defs)%nat).
    { assert (X : (length ((P ++ [k]) ++ queue) <= length (indexes (length defs)))%nat). { apply NoDup_incl_length; [exact ND|]. intros i I. apply indexes_In. apply (go_range _ _ V), I. }
      rewrite !app_length in X. unfold indexes in X. rewrite map_length, seq_length in X. cbn [length] in X. lia. }
    apply (IH (P ++ [k])); [exact R2|exact R3| |rewrite app_length; cbn [length]; lia].
    intros m MP i I. assert (M0 : ~ In m P) by (intros X; apply MP, in_or_app; auto). destruct (L m M0 i I) as (RI & AI). split; [exact RI|].
    intros it G. destruct (R4 i it G) as (it0 & G0 & M). apply M; [|apply AI, G0]. intros ->. apply MP, in_or_app. right. left. reflexivity.
Qed.

(** *** Rounds *)
Definition size (items : list item) : nat := list_sum (map (fun it => length (iFirst it)) items).
Record rounds (idx : list Z) (items : list item) : Prop := mkRounds {
  ro_len : zlen items = zlen defs;
  ro_chunk : forall i it, zget items i = Some it -> exists d, defined defs i d /\ iChunk it = Some d;
  ro_sound : forall i it t, zget items i = Some it -> In t (iFirst it) -> firstToken defs i t;
  ro_rest : forall i it t, zget items i = Some it -> ~ In i idx -> firstToken defs i t -> In t (iFirst it);
  ro_sorted : forall i it, zget items i = Some it -> StronglySorted Z.lt (iFirst it)
}.
Lemma size_set items i it it' items' : zget items i = Some it -> zset items i it' = Some items' ->
  (size items' + length (iFirst it) = size items + length (iFirst it'))%nat.
Proof.
  intros G S. apply zset_inv in S. destruct S as (_ & ->). unfold zget in G. destruct (i <? 0); [discriminate|]. revert G. generalize (Z.to_nat i). unfold size. clear.
  induction items as [|y items IH]; intros n G; [destruct n; discriminate|]. destruct n; cbn in *; [injection G as ->; lia|]. specialize (IH n G). unfold list_sum in *. lia.
Qed.
Lemma size_bound idx items : rounds idx items -> (size items <= length defs * length universe)%nat.
Proof.
  intros V. assert (X : forall it, In it items -> (length (iFirst it) <= length universe)%nat).
  { intros it I. apply In_zget in I. destruct I as (i & G). apply NoDup_incl_length; [apply sorted_nodup, (ro_sorted _ _ V i it G)|]. intros t T. eapply firstToken_universe, (ro_sound _ _ V i it t G T). }
  pose proof (ro_len _ _ V) as L. assert (L' : length items = length defs) by (unfold zlen in L; lia). rewrite <- L'. clear -X. unfold size. induction items as [|y items IH]; cbn; [lia|].
  pose proof (X y (or_introl eq_refl)). specialize (IH (fun it I => X it (or_intror I))). unfold list_sum in IH. lia.
Qed.
Lemma sunion_more a b t : StronglySorted Z.lt a -> In t b -> ~ In t a -> (length a < length (sunion a b))%nat.
Proof.
  intros S T N. assert (X : (length (t :: a) <= length (sunion a b))%nat); [|cbn [length] in X; lia].
  apply NoDup_incl_length; [constructor; [exact N|apply sorted_nodup, S]|]. intros y [->|Y]; apply sunion_In; auto.
Qed.
Lemma round_spec idx : forall l items added, (forall i, In i l -> In i idx /\ 0 <= i < zlen defs) -> rounds idx items ->
  exists items' added', firstRound l items added = Good (items', added') /\ rounds idx items' /\ map iDepends items' = map iDepends items /\ (size items <= size items')%nat /\
    (added' = true -> added = true \/ (size items < size items')%nat) /\
    (added' = false -> added = false /\ items' = items /\
       forall i it d, In i l -> zget items i = Some it -> defined defs i d -> forall t, In t (firstTokens (map iFirst items) d) -> In t (iFirst it)).
Proof.
  induction l as [|i l IH]; intros items added R V.
  - exists items, added. split; [reflexivity|]. split; [exact V|]. split; [reflexivity|]. split; [lia|]. split; [auto|]. intros ->. split; [reflexivity|]. split; [reflexivity|]. intros i it d [].
  - destruct (R i (or_introl eq_refl)) as (II & RI). assert (RI' : 0 <= i < zlen items) by (rewrite (ro_len _ _ V); exact RI).
    destruct (zget_range items i RI') as (it & G). destruct (ro_chunk _ _ V i it G) as (d & GD & CD). cbn [firstRound]. rewrite G. cbn [orCrash obnd]. unfold chunkFirst at 1. rewrite CD. cbn [obnd].
    set (s := firstTokens (map iFirst items) d).
    assert (SND : forall t, In t s -> firstToken defs i t).
    { intros t T. unfold s in T. apply firstTokens_spec in T. destruct T as (x & H & T). apply (firstToken_unfold i d t GD). exists x. split; [exact H|]. destruct x as [k| |j u]; cbn in *; auto.
      assert (RJ : 0 <= j < zlen items). { rewrite (ro_len _ _ V). apply (ds_refers _ D i j). exists d. split; [exact GD|]. eapply heads_mentions; [exact H|reflexivity]. }
      destruct (zget_range items j RJ) as (jt & GJ). rewrite (firstsOf_item _ _ _ GJ) in T. eapply (ro_sound _ _ V); eassumption. }
    destruct (negb match s with [] => true | _ :: _ => false end && existsb (fun t => negb (smem t (iFirst it))) s) eqn:C.
    + apply andb_true_iff in C. destruct C as (_ & C). apply existsb_exists in C. destruct C as (t & T & N). apply negb_true_iff in N.
      assert (NT : ~ In t (iFirst it)) by (intros X; apply smem_In in X; congruence).
      unfold setItem. destruct (zset_spec items i (mkItem (iDepends it) (sunion (iFirst it) s) (Some d)) RI') as (items1 & Z1 & Z2 & Z3). rewrite Z1. cbn [orCrash obnd].
      pose proof (size_set items i it _ items1 G Z1) as SZ. cbn [iFirst] in SZ. pose proof (sunion_more _ s t (ro_sorted _ _ V i it G) T NT) as MORE.
      destruct (IH items1 true) as (items' & added' & E & V' & DP & S1 & S2 & S3).
      * intros j J. apply R. right. exact J.
      * split.
        -- rewrite Z2. apply (ro_len _ _ V).
        -- intros j jt. rewrite Z3. destruct (Z.eqb_spec j i) as [->|NE]; [|apply (ro_chunk _ _ V)]. intros Y. injection Y as <-. exists d. auto.
        -- intros j jt t'. rewrite Z3. destruct (Z.eqb_spec j i) as [->|NE]; [|apply (ro_sound _ _ V)]. intros Y. injection Y as <-. cbn [iFirst]. intros X. apply sunion_In in X.
           destruct X as [X|X]; [eapply (ro_sound _ _ V); eassumption|apply SND, X].
        -- intros j jt t'. rewrite Z3. destruct (Z.eqb_spec j i) as [->|NE]; [contradiction|apply (ro_rest _ _ V)].
        -- intros j jt. rewrite Z3. destruct (Z.eqb_spec j i) as [->|NE]; [|apply (ro_sorted _ _ V)]. intros Y. injection Y as <-. apply sunion_sorted, (ro_sorted _ _ V i it G).
      * exists items', added'. split; [exact E|]. split; [exact V'|]. split.
        { rewrite DP. clear -Z1 G. clearbody s. apply zset_inv in Z1. destruct Z1 as (_ & ->). unfold zget in G. destruct (i <? 0); [discriminate|]. revert G. generalize (Z.to_nat i).
          induction items as [|y items IH]; intros n G; [destruct n; discriminate|]. destruct n; cbn in *; [injection G as ->; reflexivity|]. f_equal. apply IH, G. }
        split; [lia|]. split; [intros _; right; lia|]. intros X. destruct (S3 X) as (Y & _). discriminate.
    + destruct (IH items added) as (items' & added' & E & V' & DP & S1 & S2 & S3); [intros j J; apply R; right; exact J|exact V|].
      exists items', added'. split; [exact E|]. split; [exact V'|]. split; [exact DP|]. split; [exact S1|]. split; [exact S2|]. intros X. destruct (S3 X) as (Y1 & Y2 & Y3). split; [exact Y1|]. split; [exact Y2|].
      intros j jt dj [<-|J] GJ DJ t T; [|eapply Y3; eassumption]. unfold defined in DJ, GD. assert (dj = d) by congruence. assert (jt = it) by congruence. subst dj jt. fold s in T.
      destruct (smem t (iFirst it)) eqn:M; [apply smem_In, M|]. exfalso.
      assert (B : existsb (fun t => negb (smem t (iFirst it))) s = true) by (apply existsb_exists; exists t; split; [exact T|rewrite M; reflexivity]). rewrite B in C. destruct s; [contradiction|discriminate].
Qed.
Lemma closed_exact items : zlen items = zlen defs ->
  (forall i it d t, zget items i = Some it -> defined defs i d -> In t (firstTokens (map iFirst items) d) -> In t (iFirst it)) ->
  forall i t, firstToken defs i t -> forall it, zget items i = Some it -> In t (iFirst it).
Proof.
  intros L C. induction 1 as [i d t w G S|i d w G S|i d j u w t G S H IH]; intros it GI; eapply C; try eassumption; apply firstTokens_spec; pose proof (ds_written _ D _ _ G) as W.
  - exists (STok t). split; [apply heads_iff; eauto|reflexivity].
  - exists SEoi. split; [apply heads_iff; eauto|reflexivity].
  - assert (HD : heads d (SNode j u)) by (apply heads_iff; eauto). exists (SNode j u). split; [exact HD|]. cbn.
    assert (RJ : 0 <= j < zlen items). { rewrite L. apply (ds_refers _ D i j). exists d. split; [exact G|]. eapply heads_mentions; [exact HD|reflexivity]. }
    destruct (zget_range items j RJ) as (jt & GJ). rewrite (firstsOf_item _ _ _ GJ). apply IH, GJ.
Qed.
Lemma rounds_spec idx : (forall i, In i idx -> 0 <= i < zlen defs) -> forall fuel items, rounds idx items -> (length defs * length universe - size items < fuel)%nat ->
  exists items', firstLoop fuel idx items = Good items' /\ rounds idx items' /\ (forall i it t, zget items' i = Some it -> (In t (iFirst it) <-> firstToken defs i t)).
Proof.
  intros RI. induction fuel as [|fuel IH]; intros items V F; [lia|]. cbn [firstLoop].
  destruct (round_spec idx idx items false) as (items1 & added & E & V1 & _ & S1 & S2 & S3); [intros i I; auto|exact V|]. rewrite E. cbn [obnd]. destruct added.
  - destruct (S2 eq_refl) as [X|X]; [discriminate|]. apply IH; [exact V1|]. pose proof (size_bound idx items1 V1). lia.
  - exists items1. split; [reflexivity|]. split; [exact V1|]. destruct (S3 eq_refl) as (_ & -> & C). intros i it t G. split; [apply (ro_sound _ _ V i it t G)|].
    intros H. apply (closed_exact items (ro_len _ _ V)) with (i := i); [|exact H|exact G].
    intros j jt d t' GJ DJ T. destruct (in_dec Z.eq_dec j idx) as [I|N]; [apply (C j jt d I GJ DJ t' T)|].
    apply (ro_rest _ _ V j jt t' GJ N). apply (firstToken_unfold j d t' DJ). apply firstTokens_spec in T. destruct T as (x & HX & T). exists x. split; [exact HX|]. destruct x as [k| |m u]; cbn in *; auto.
    assert (RM : 0 <= m < zlen items). { rewrite (ro_len _ _ V). apply (ds_refers _ D j m). exists d. split; [exact DJ|]. eapply heads_mentions; [exact HX|reflexivity]. }
    destruct (zget_range items m RM) as (mt & GM). rewrite (firstsOf_item _ _ _ GM) in T. eapply (ro_sound _ _ V); eassumption.
Qed.

Record solved (items : list item) : Prop := mkSolved {
  sv_len : zlen items = zlen defs;
  sv_chunk : forall i it, zget items i = Some it -> exists d, defined defs i d /\ iChunk it = Some d;
  sv_first : forall i it t, zget items i = Some it -> (In t (iFirst it) <-> firstToken defs i t);
  sv_sorted : forall i it, zget items i = Some it -> StronglySorted Z.lt (iFirst it)
}.
Lemma nil_iff (l : list Z) : l = [] <-> forall t, ~ In t l.
Proof. destruct l as [|x l]; split; intros H; [auto|reflexivity|discriminate|]. destruct (H x). left. reflexivity. Qed.
Lemma resolve_spec order order' : Permutation order (indexes (length defs)) -> Permutation order' (indexes (length defs)) -> exists n, forall fuel, (n <= fuel)%nat ->
  (exists items, resolveDependencies fuel order order' (map itemOf defs) = Good items /\ solved items /\ forall i, 0 <= i < zlen defs -> exists t, firstToken defs i t) \/
  (exists ns, resolveDependencies fuel order order' (map itemOf defs) = Bad (EUnresolved ns) /\ ns <> [] /\ NoDup ns /\
    forall i, In i ns <-> 0 <= i < zlen defs /\ ~ exists t, firstToken defs i t).
Proof.
  intros P P'. exists (S (length defs) + S (length defs * length universe))%nat. intros fuel F. unfold resolveDependencies.
  assert (IO : forall i, In i order -> 0 <= i < zlen defs). { intros i X. apply (Permutation_in _ P) in X. apply indexes_In in X. exact X. }
  assert (IO' : forall i, In i order' <-> 0 <= i < zlen defs).
  { intros i. split; intros X; [apply (Permutation_in _ P') in X; apply indexes_In in X; exact X|apply (Permutation_in _ (Permutation_sym P')), indexes_In; exact X]. }
  assert (NO : NoDup order) by (apply (Permutation_NoDup (Permutation_sym P)), indexes_nodup).
  assert (ST : starting [] (map itemOf defs) [] []).
  { split; try (intros; contradiction); try reflexivity.
    - apply items_zlen.
    - intros i it G. rewrite zget_map in G. destruct (zget defs i) as [d|] eqn:GD; cbn in G; [|discriminate]. injection G as <-. destruct (ALL i (zget_Some_inv _ _ _ GD)) as (c & X). exists c. split; [exact X|].
      unfold defined in X. assert (d = Some c) by congruence. subst d. reflexivity.
    - intros i it G. rewrite zget_map in G. unfold deps. destruct (zget defs i) as [[d|]|] eqn:GD; cbn in G; [| |discriminate]; injection G as <-; reflexivity.
    - intros i it G. rewrite zget_map in G. destruct (zget defs i) as [d|] eqn:GD; cbn in G; [|discriminate]. injection G as <-. reflexivity.
    - intros i it G. rewrite zget_map in G. destruct (zget defs i) as [d|] eqn:GD; cbn in G; [|discriminate]. injection G as <-. constructor. }
  destruct (start_spec order [] _ _ _ IO NO ST) as (items1 & affects & queue & E1 & V1). cbn [app] in V1. rewrite E1. cbn [obnd].
  destruct (starting_going order items1 affects queue P V1) as (V2 & NQ).
  destruct (loop_spec affects) with (fuel := fuel) (P := @nil Z) (queue := queue) (items := items1) as (items2 & dn & E2 & V3).
  { intros k. rewrite (sg_aff _ _ _ _ V1). apply NoDup_filter, NO. }
  { exact V2. }
  { exact NQ. }
  { intros k _ i I. rewrite (sg_aff _ _ _ _ V1) in I. apply filter_In in I. destruct I as (I & M). split; [apply IO, I|]. intros it G. rewrite (sg_deps _ _ _ _ V1 i it G). apply smem_In, M. }
  { cbn [length]. lia. }
  rewrite E2. cbn [obnd]. set (f := fun i : Z => _). set (idx := filter f order').
  assert (IX : forall i, In i idx <-> 0 <= i < zlen defs /\ ~ In i dn).
  { intros i. unfold idx. rewrite filter_In, IO'. unfold f. split; intros (R & X); (split; [exact R|]).
    - destruct (zget items2 i) as [it|] eqn:G; [|discriminate]. rewrite <- (go_done _ _ V3 i it G). destruct (iDepends it); [discriminate|]. discriminate.
    - assert (R' : 0 <= i < zlen items2) by (rewrite (go_len _ _ V3); exact R). destruct (zget_range items2 i R') as (it & G). rewrite G. rewrite <- (go_done _ _ V3 i it G) in X. destruct (iDepends it); [contradiction|reflexivity]. }
  assert (V4 : rounds idx items2).
  { split; [apply (go_len _ _ V3)|apply (go_chunk _ _ V3)| | |apply (go_sorted _ _ V3)].
    - intros i it t G T. destruct (in_dec Z.eq_dec i dn) as [I|N]; [apply (go_first _ _ V3 i it G I), T|]. rewrite (go_none _ _ V3 i it G N) in T. contradiction.
    - intros i it t G N T. destruct (in_dec Z.eq_dec i dn) as [I|N']; [apply (go_first _ _ V3 i it G I), T|]. destruct N. apply IX. split; [|exact N']. apply zget_Some_inv in G. rewrite (go_len _ _ V3) in G. exact G. }
  destruct idx as [|x idx'] eqn:IE.
  - left. exists items2. split; [reflexivity|].
    assert (DN : forall i, 0 <= i < zlen defs -> In i dn). { intros i R. destruct (in_dec Z.eq_dec i dn) as [I|N]; [exact I|]. destruct (proj2 (IX i) (conj R N)). }
    assert (SV : solved items2).
    { split; [apply (go_len _ _ V3)|apply (go_chunk _ _ V3)| |apply (go_sorted _ _ V3)]. intros i it t G. apply (go_first _ _ V3 i it G). apply DN. apply zget_Some_inv in G. rewrite (go_len _ _ V3) in G. exact G. }
    split; [exact SV|].
    intros i R. apply (go_some _ _ V3), DN, R.
  - destruct (rounds_spec (x :: idx')) with (fuel := fuel) (items := items2) as (items3 & E3 & V5 & X5); [intros i I; apply IX, I|exact V4|lia|].
    rewrite E3. cbn [obnd]. set (g := fun i : Z => _). set (names := filter g (x :: idx')).
    assert (IN : forall i, In i names <-> 0 <= i < zlen defs /\ ~ exists t, firstToken defs i t).
    { intros i. unfold names. rewrite filter_In, IX. unfold g. split.
      - intros ((R & N) & X). split; [exact R|]. destruct (zget items3 i) as [it|] eqn:G; [|discriminate]. intros (t & T). apply (X5 i it t G) in T. destruct (iFirst it); [contradiction|discriminate].
      - intros (R & X). split; [split; [exact R|intros I; apply X, (go_some _ _ V3), I]|]. assert (R' : 0 <= i < zlen items3) by (rewrite (ro_len _ _ V5); exact R).
        destruct (zget_range items3 i R') as (it & G). rewrite G. destruct (iFirst it) as [|t l] eqn:FI; [reflexivity|]. destruct X. exists t. apply (X5 i it t G). rewrite FI. left. reflexivity. }
    destruct names as [|y names'] eqn:NE.
    + left. exists items3. split; [reflexivity|]. split.
      * split; [apply (ro_len _ _ V5)|apply (ro_chunk _ _ V5)|exact X5|apply (ro_sorted _ _ V5)].
      * intros i R. assert (R' : 0 <= i < zlen items3) by (rewrite (ro_len _ _ V5); exact R). destruct (zget_range items3 i R') as (it & G). destruct (iFirst it) as [|t l] eqn:FI.
        -- destruct (proj2 (IN i)). split; [exact R|]. intros (t & T). apply (X5 i it t G) in T. rewrite FI in T. exact T.
        -- exists t. apply (X5 i it t G). rewrite FI. left. reflexivity.
    + right. exists (y :: names'). split; [reflexivity|]. split; [discriminate|]. split; [|exact IN]. rewrite <- NE. apply NoDup_filter. rewrite <- IE. apply NoDup_filter.
      apply (Permutation_NoDup (Permutation_sym P')), indexes_nodup.
Qed.
End Defined.
