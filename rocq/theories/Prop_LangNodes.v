(** C15, C16, C17: checks of a grammar description. *)
From Coq Require Import ZArith List Bool Lia Sorted Relations Permutation.
From Verif Require Import Base BaseProofs Grammar LangBuild LangSpec LangProofs LangFrame LangComplete LangTotal LangDrop LangNodes LangNodesSpec LangNodesProofs LangFirst LangHeads LangRecursion.
Import ListNotations.
Open Scope Z_scope.

Lemma chunksOf_solved items : forall defs, (forall i it, zget items i = Some it -> exists d, zget defs i = Some (Some d) /\ iChunk it = Some d) -> length items = length defs ->
  exists cs, chunksOf items = Some cs /\ map Some cs = defs.
Proof.
  induction items as [|it items IH]; intros defs H L.
  - exists []. destruct defs; [auto|discriminate].
  - destruct defs as [|d defs]; [discriminate|]. destruct (H 0 it eq_refl) as (c & G & C). cbn in G. injection G as ->.
    destruct (IH defs) as (cs & E & M).
    + intros i jt G. pose proof (zget_Some_inv _ _ _ G) as R. destruct (H (i + 1) jt) as (d & GD & CD).
      * unfold zget in *. destruct (Z.ltb_spec i 0); [lia|]. destruct (Z.ltb_spec (i + 1) 0); [lia|]. replace (Z.to_nat (i + 1)) with (S (Z.to_nat i)) by lia. exact G.
      * exists d. split; [|exact CD]. unfold zget in *. destruct (Z.ltb_spec i 0); [lia|]. destruct (Z.ltb_spec (i + 1) 0); [lia|]. replace (Z.to_nat (i + 1)) with (S (Z.to_nat i)) in GD by lia. exact GD.
    + cbn in L. lia.
    + exists (c :: cs). cbn [chunksOf map]. rewrite C. cbn [obind]. rewrite E. cbn [obind]. split; [reflexivity|]. f_equal. exact M.
Qed.

Section Checks.
Variable defs : list (option chunk).
Hypothesis D : described defs.
Hypothesis NE : defs <> [].
(** orders of the loops over the index of nodes *)
Variables o1 o2 o3 : list Z.
Hypothesis P1 : Permutation o1 (indexes (length defs)).
Hypothesis P2 : Permutation o2 (indexes (length defs)).
Hypothesis P3 : Permutation o3 (indexes (length defs)).

Definition allDefined : Prop := forall i, 0 <= i < zlen defs -> exists d, defined defs i d.
Definition allReachable : Prop := forall i, 0 <= i < zlen defs -> reachable defs i.
Definition allBegin : Prop := forall i, 0 <= i < zlen defs -> exists t, firstToken defs i t.
(** what is known about the error *)
Definition explained (e : nodeError) : Prop :=
  match e with
  | EUndefined ns => ns <> [] /\ NoDup ns /\ (forall j, In j ns <-> (exists i, refers defs i j) /\ ~ exists d, defined defs j d)
  | EUnused ns => allDefined /\ ns <> [] /\ NoDup ns /\ (forall i, In i ns <-> 0 <= i < zlen defs /\ ~ reachable defs i)
  | EUnresolved ns => allDefined /\ allReachable /\ ns <> [] /\ NoDup ns /\ (forall i, In i ns <-> 0 <= i < zlen defs /\ ~ exists t, firstToken defs i t)
  | ERecursion ns => allDefined /\ allReachable /\ allBegin /\ ns <> [] /\ NoDup ns /\
      (forall i, In i ns -> 0 <= i < zlen defs /\ exists j, clos_refl_trans Z (leftCorner defs) i j /\ leftRecursive (leftCorner defs) j) /\
      (tokenFirst defs -> forall i j, 0 <= i < zlen defs -> clos_refl_trans Z (leftCorner defs) i j -> leftRecursive (leftCorner defs) j -> In i ns)
  end.
(** what is known about sets of first tokens, first states and states *)
Record accepted (firsts : list (list Z)) (fs : list Z) (p : pres) : Prop := mkAccepted {
  ac_defined : allDefined;
  ac_reachable : allReachable;
  ac_begin : allBegin;
  ac_len : length firsts = length defs;
  ac_first : forall i t, 0 <= i < zlen defs -> (In t (firstsOf firsts i) <-> firstToken defs i t);
  ac_sorted : forall s, In s firsts -> StronglySorted Z.lt s;
  ac_built : exists cs, map Some cs = defs /\ buildNodes firsts cs (mkPres [] 0) = Some (fs, p);
  ac_flat : tokenFirst defs -> forall i, ~ leftRecursive (leftCorner defs) i
}.

(** nodes of the rules of first states are the nodes strings of the definitions begin with *)
Lemma edge_corner firsts cs fs p : map Some cs = defs -> buildNodes firsts cs (mkPres [] 0) = Some (fs, p) ->
  (forall i t, 0 <= i < zlen defs -> (In t (firstsOf firsts i) <-> firstToken defs i t)) ->
  length fs = length defs /\ (forall i, 0 <= i < zlen fs -> exists f e, zget fs i = Some f /\ zget (sts p) f = Some e) /\
  (forall i j, edge fs (sts p) i j -> leftCorner defs i j) /\ (tokenFirst defs -> forall i j, leftCorner defs i j -> edge fs (sts p) i j).
Proof.
  intros CS B F. assert (W : forall d, In d cs -> written d). { intros d I. apply In_zget in I. destruct I as (i & G). apply (ds_written _ D i d). unfold defined. rewrite <- CS, zget_map, G. reflexivity. }
  assert (O0 : okP (mkPres [] 0)). { intros i e G. apply zget_Some_inv in G. unfold zlen in G. cbn in G. lia. }
  destruct (nodes_heads firsts cs W _ _ _ B O0) as (L & LV & X). assert (LD : length cs = length defs) by (rewrite <- CS, map_length; reflexivity).
  assert (GC : forall i d, defined defs i d <-> zget cs i = Some d).
  { intros i d. unfold defined. rewrite <- CS, zget_map. destruct (zget cs i); cbn; split; congruence. }
  split; [congruence|]. split; [|split].
  - intros i R. destruct (zget_range fs i R) as (f & G). exists f. destruct (live_entry p f (LV f (zget_In _ _ _ G))) as (e & Ge). exists e. auto.
  - intros i j (f & e & r & GF & GE & R & RN & NS). assert (RI : 0 <= i < zlen cs). { apply zget_Some_inv in GF. unfold zlen in *. lia. }
    destruct (zget_range cs i RI) as (d & GD). destruct (X i d f GD GF) as (X1 & _). destruct (X1 r) as [(x & HX & RX)|(_ & Y)]; [exists e; auto| |congruence].
    destruct x as [k| |m u]; cbn in RX; [destruct RX; congruence|destruct RX; congruence|]. destruct RX as (E & _). assert (GDD : defined defs i d) by (apply GC, GD).
    apply heads_iff in HX; [|eapply ds_written; eassumption]. destruct HX as (w & S). exists d, u, w. split; [exact GDD|]. rewrite <- RN, E. exact S.
  - intros TF i j (d & u & w & GD & S). assert (HX : heads d (SNode j u)) by (apply heads_iff; [eapply ds_written; eassumption|eauto]).
    assert (RJ : 0 <= j < zlen defs). { apply (ds_refers _ D i j). exists d. split; [exact GD|]. eapply heads_mentions; [exact HX|reflexivity]. }
    destruct (TF j RJ) as (t & T0 & T). apply GC in GD. assert (RI : 0 <= i < zlen fs). { apply zget_Some_inv in GD. unfold zlen in *. lia. }
    destruct (zget_range fs i RI) as (f & GF). destruct (X i d f GD GF) as (_ & X2). destruct (X2 (mkRule t 0 j)) as (r' & (e & GE & IR) & AL & AN); [exists (SNode j u); split; [exact HX|]; cbn; split; [reflexivity|]; apply F; assumption|exact T0|].
    exists f, e, r'. cbn [rNode] in AN. split; [exact GF|]. split; [exact GE|]. split; [exact IR|]. split; [auto|]. unfold SameNode. lia.
Qed.
Lemma cyclic_corner fs p i : (forall i j, edge fs (sts p) i j -> leftCorner defs i j) -> cyclic fs (sts p) i -> exists j, clos_refl_trans Z (leftCorner defs) i j /\ leftRecursive (leftCorner defs) j.
Proof.
  intros S (j & A & B). exists j. split; [|unfold leftRecursive].
  - clear B. induction A; [apply rt_step, S; assumption|apply rt_refl|eapply rt_trans; eassumption].
  - clear A. revert B. generalize j at 2 4. intros k B. induction B; [apply t_step, S; assumption|eapply t_trans; eassumption].
Qed.
Lemma corner_cyclic fs p i j : (forall i j, leftCorner defs i j -> edge fs (sts p) i j) -> clos_refl_trans Z (leftCorner defs) i j -> leftRecursive (leftCorner defs) j -> cyclic fs (sts p) i.
Proof.
  intros S A B. exists j. split.
  - clear B. induction A; [apply rt_step, S; assumption|apply rt_refl|eapply rt_trans; eassumption].
  - clear A. unfold leftRecursive in B. revert B. generalize j at 2 4. intros k B. induction B; [apply t_step, S; assumption|eapply t_trans; eassumption].
Qed.

(** sets of first tokens, first states and states *)
Record built (firsts : list (list Z)) (fs : list Z) (p : pres) : Prop := mkBuilt {
  bt_len : length firsts = length defs;
  bt_first : forall i t, 0 <= i < zlen defs -> (In t (firstsOf firsts i) <-> firstToken defs i t);
  bt_sorted : forall s, In s firsts -> StronglySorted Z.lt s;
  bt_built : exists cs, map Some cs = defs /\ buildNodes firsts cs (mkPres [] 0) = Some (fs, p)
}.
Lemma description_checked_full : exists n, forall fuel, (n <= fuel)%nat ->
  match checkNodes fuel o1 o2 o3 defs with
  | Good (firsts, fs, p) => accepted firsts fs p /\ forall i, 0 <= i < zlen defs -> ~ cyclic fs (sts p) i
  | Bad e => explained e /\ match e with ERecursion ns => exists firsts fs p, built firsts fs p /\ forall i, In i ns <-> 0 <= i < zlen defs /\ cyclic fs (sts p) i | _ => True end
  | Stuck | Crash => False
  end.
Proof.
  unfold checkNodes. destruct (undefined_spec defs o1 D P1) as [(U & AD)|(ns & U & X)].
  2: { exists O. intros fuel _. rewrite U. cbn [obnd]. split; [exact X|exact I]. }
  destruct (unused_spec defs D AD NE) as (n1 & H1). destruct (resolve_spec defs D AD o2 o3 P2 P3) as (n2 & H2). exists (n1 + n2 + S (length defs))%nat. intros fuel F.
  rewrite U. cbn [obnd]. destruct (H1 fuel ltac:(lia)) as [(E1 & AR)|(ns & E1 & X1 & X2 & X3)]; rewrite E1; cbn [obnd].
  2: { split; [|exact I]. split; [exact AD|]. split; [exact X1|]. split; [apply sorted_nodup, X2|exact X3]. }
  destruct (H2 fuel ltac:(lia)) as [(items & E2 & [SL SC SF SS] & AB)|(ns & E2 & X1 & X2 & X3)]; rewrite E2; cbn [obnd].
  2: { split; [|exact I]. split; [exact AD|]. split; [exact AR|]. auto. }
  assert (LI : length items = length defs) by (unfold zlen in SL; lia).
  destruct (chunksOf_solved items defs SC LI) as (cs & CS & MS). rewrite CS. cbn [orCrash obnd].
  assert (W : forall d, In d cs -> written d). { intros d I. apply In_zget in I. destruct I as (i & G). apply (ds_written _ D i d). unfold defined. rewrite <- MS, zget_map, G. reflexivity. }
  destruct (nodes_total (map iFirst items) cs W (mkPres [] 0)) as (fs & p & B & LF). rewrite B. cbn [orCrash obnd].
  assert (FX : forall i t, 0 <= i < zlen defs -> (In t (firstsOf (map iFirst items) i) <-> firstToken defs i t)).
  { intros i t R. rewrite <- SL in R. destruct (zget_range items i R) as (it & G). rewrite (firstsOf_item _ _ _ G). apply (SF i it t G). }
  destruct (edge_corner _ cs fs p MS B FX) as (LFS & EX & S1 & S2).
  assert (ZF : zlen fs = zlen defs) by (unfold zlen; congruence).
  assert (SRT : forall s, In s (map iFirst items) -> StronglySorted Z.lt s). { intros s I. apply in_map_iff in I. destruct I as (it & <- & I). apply In_zget in I. destruct I as (i & G). eapply SS, G. }
  destruct (recursions_spec fs (sts p) EX) with (fuel := fuel) as [(E3 & X)|(ns & E3 & X1 & X2 & X3)].
  { intros i j E. rewrite ZF. apply S1 in E. destruct E as (d & u & w & G & ST). apply (ds_refers _ D i j). exists d. split; [exact G|].
    eapply heads_mentions; [|reflexivity]. apply heads_iff; [eapply ds_written; eassumption|exists w; exact ST]. }
  { lia. }
  - rewrite E3. cbn [obnd]. split; [|rewrite <- ZF; exact X]. split; auto.
    + rewrite map_length. exact LI.
    + eauto.
    + intros TF i LR. assert (R : 0 <= i < zlen fs).
      { rewrite ZF. unfold leftRecursive in LR. apply clos_trans_t1n in LR. assert (Y : exists k, leftCorner defs i k) by (inversion LR; eauto). destruct Y as (k & d & u & w & G & _). eapply zget_Some_inv, G. }
      apply (X i R). eapply corner_cyclic; [apply S2, TF|apply rt_refl|exact LR].
  - rewrite E3. cbn [obnd]. cbn [explained]. rewrite ZF in X3. split; [|exists (map iFirst items), fs, p; split; [split; [rewrite map_length; exact LI|exact FX|exact SRT|eauto]|exact X3]]. split; [exact AD|]. split; [exact AR|]. split; [exact AB|]. split; [exact X1|]. split; [apply sorted_nodup, X2|]. split.
    + intros i I. apply X3 in I. destruct I as (R & C). split; [exact R|]. eapply cyclic_corner; eassumption.
    + intros TF i j R A LR. apply X3. split; [exact R|]. eapply corner_cyclic; [apply S2, TF|exact A|exact LR].
Qed.
(** Every description gets one of the verdicts; the errors name the right nodes. *)
Theorem description_checked : exists n, forall fuel, (n <= fuel)%nat ->
  match checkNodes fuel o1 o2 o3 defs with
  | Good (firsts, fs, p) => accepted firsts fs p
  | Bad e => explained e
  | Stuck | Crash => False
  end.
Proof.
  destruct description_checked_full as (n & H). exists n. intros fuel F. specialize (H fuel F). destruct (checkNodes fuel o1 o2 o3 defs) as [((firsts, fs), p)|e| |]; try contradiction; apply H.
Qed.
End Checks.

(** C17. *)
Theorem undefined_nodes_rejected defs o1 o2 o3 : described defs -> defs <> [] ->
  Permutation o1 (indexes (length defs)) -> Permutation o2 (indexes (length defs)) -> Permutation o3 (indexes (length defs)) ->
  exists n, forall fuel, (n <= fuel)%nat ->
    ((exists ns, checkNodes fuel o1 o2 o3 defs = Bad (EUndefined ns)) <-> (exists i j, refers defs i j /\ ~ exists d, defined defs j d)) /\
    (forall ns, checkNodes fuel o1 o2 o3 defs = Bad (EUndefined ns) -> forall j, In j ns <-> (exists i, refers defs i j) /\ ~ exists d, defined defs j d).
Proof.
  intros D NE P1 P2 P3. destruct (description_checked defs D NE o1 o2 o3 P1 P2 P3) as (n & H). exists n. intros fuel F. specialize (H fuel F).
  assert (AD : allDefined defs -> ~ exists i j, refers defs i j /\ ~ exists d, defined defs j d). { intros A (i & j & R & N). apply N, A, (ds_refers _ D i j R). }
  destruct (checkNodes fuel o1 o2 o3 defs) as [((firsts, fs), p)|e| |]; try contradiction.
  - split; [|discriminate]. split; [intros (ns & E); discriminate|intros X; destruct (AD (ac_defined _ _ _ _ H) X)].
  - destruct e as [ns|ns|ns|ns]; cbn [explained] in H.
    + destruct H as (X1 & X2 & X3). split.
      * split; [|eauto]. intros _. destruct ns as [|j ns]; [contradiction|]. destruct (proj1 (X3 j) (or_introl eq_refl)) as ((i & R) & N). eauto.
      * intros ns' E. injection E as <-. exact X3.
    + split; [|discriminate]. split; [intros (ns' & E); discriminate|intros X; destruct (AD (proj1 H) X)].
    + split; [|discriminate]. split; [intros (ns' & E); discriminate|intros X; destruct (AD (proj1 H) X)].
    + split; [|discriminate]. split; [intros (ns' & E); discriminate|intros X; destruct (AD (proj1 H) X)].
Qed.
Theorem unused_nodes_rejected defs o1 o2 o3 : described defs -> defs <> [] ->
  Permutation o1 (indexes (length defs)) -> Permutation o2 (indexes (length defs)) -> Permutation o3 (indexes (length defs)) ->
  (forall i j, refers defs i j -> exists d, defined defs j d) ->
  exists n, forall fuel, (n <= fuel)%nat ->
    ((exists ns, checkNodes fuel o1 o2 o3 defs = Bad (EUnused ns)) <-> (exists i, 0 <= i < zlen defs /\ ~ reachable defs i)) /\
    (forall ns, checkNodes fuel o1 o2 o3 defs = Bad (EUnused ns) -> forall i, In i ns <-> 0 <= i < zlen defs /\ ~ reachable defs i).
Proof.
  intros D NE P1 P2 P3 AD. destruct (description_checked defs D NE o1 o2 o3 P1 P2 P3) as (n & H). exists n. intros fuel F. specialize (H fuel F).
  assert (AR : allReachable defs -> ~ exists i, 0 <= i < zlen defs /\ ~ reachable defs i). { intros A (i & R & N). apply N, A, R. }
  destruct (checkNodes fuel o1 o2 o3 defs) as [((firsts, fs), p)|e| |]; try contradiction.
  - split; [|discriminate]. split; [intros (ns & E); discriminate|intros X; destruct (AR (ac_reachable _ _ _ _ H) X)].
  - destruct e as [ns|ns|ns|ns]; cbn [explained] in H.
    + exfalso. destruct H as (X1 & X2 & X3). destruct ns as [|j ns]; [contradiction|]. destruct (proj1 (X3 j) (or_introl eq_refl)) as ((i & R) & N). apply N, (AD i j R).
    + destruct H as (_ & X1 & X2 & X3). split.
      * split; [|eauto]. intros _. destruct ns as [|j ns]; [contradiction|]. exists j. apply X3. left. reflexivity.
      * intros ns' E. injection E as <-. exact X3.
    + split; [|discriminate]. split; [intros (ns' & E); discriminate|intros X; destruct (AR (proj1 (proj2 H)) X)].
    + split; [|discriminate]. split; [intros (ns' & E); discriminate|intros X; destruct (AR (proj1 (proj2 H)) X)].
Qed.

(** C15.  The sets computed are the least ones closed under the definitions (nodes that may be empty are not looked through). *)
Theorem first_sets_least defs o1 o2 o3 : described defs -> defs <> [] ->
  Permutation o1 (indexes (length defs)) -> Permutation o2 (indexes (length defs)) -> Permutation o3 (indexes (length defs)) ->
  exists n, forall fuel, (n <= fuel)%nat -> forall firsts fs p, checkNodes fuel o1 o2 o3 defs = Good (firsts, fs, p) ->
    length firsts = length defs /\ (forall i, 0 <= i < zlen defs -> firstsOf firsts i <> [] /\ forall t, In t (firstsOf firsts i) <-> firstToken defs i t).
Proof.
  intros D NE P1 P2 P3. destruct (description_checked defs D NE o1 o2 o3 P1 P2 P3) as (n & H). exists n. intros fuel F firsts fs p E. specialize (H fuel F). rewrite E in H.
  split; [apply H|]. intros i R. split; [|intros t; apply H, R]. destruct (ac_begin _ _ _ _ H i R) as (t & T). apply (ac_first _ _ _ _ H i t R) in T. intros X. rewrite X in T. exact T.
Qed.
(** The verdict does not depend on the order of the loops: the same tables, the same nodes in errors. *)
Definition sameVerdict (a b : outcome (list (list Z) * list Z * pres)) : Prop :=
  match a, b with
  | Good x, Good y => x = y
  | Bad (EUndefined l), Bad (EUndefined m) | Bad (EUnused l), Bad (EUnused m) | Bad (EUnresolved l), Bad (EUnresolved m) | Bad (ERecursion l), Bad (ERecursion m) => Permutation l m
  | _, _ => False
  end.
Lemma sorted_same : forall l m : list Z, StronglySorted Z.lt l -> StronglySorted Z.lt m -> (forall t, In t l <-> In t m) -> l = m.
Proof.
  induction l as [|x l IH]; intros m S T E.
  - destruct m as [|y m]; [reflexivity|]. destruct (proj2 (E y) (or_introl eq_refl)).
  - destruct m as [|y m]; [destruct (proj1 (E x) (or_introl eq_refl))|]. inversion S as [|? ? S' FS]; subst. inversion T as [|? ? T' FT]; subst. rewrite Forall_forall in FS, FT.
    assert (x = y). { destruct (proj1 (E x) (or_introl eq_refl)) as [X|X]; [auto|]. destruct (proj2 (E y) (or_introl eq_refl)) as [Y|Y]; [auto|]. specialize (FS y Y). specialize (FT x X). lia. }
    subst y. f_equal. apply IH; [exact S'|exact T'|]. intros t. split; intros X.
    + destruct (proj1 (E t) (or_intror X)) as [<-|Y]; [specialize (FS x X); lia|exact Y].
    + destruct (proj2 (E t) (or_intror X)) as [<-|Y]; [specialize (FT x X); lia|exact Y].
Qed.
Lemma sets_same (l m : list (list Z)) : length l = length m -> (forall s, In s l -> StronglySorted Z.lt s) -> (forall s, In s m -> StronglySorted Z.lt s) ->
  (forall i t, 0 <= i < zlen l -> (In t (firstsOf l i) <-> In t (firstsOf m i))) -> l = m.
Proof.
  revert m. induction l as [|x l IH]; intros m L S T E; destruct m as [|y m]; try discriminate; [reflexivity|]. f_equal.
  - apply sorted_same; [apply S; left; reflexivity|apply T; left; reflexivity|]. intros t. apply (E 0 t). unfold zlen. cbn [length]. lia.
  - apply IH; [cbn in L; lia|intros; apply S; right; assumption|intros; apply T; right; assumption|]. intros i t R. specialize (E (i + 1) t).
    assert (X : forall (z : list Z) n, firstsOf (z :: n) (i + 1) = firstsOf n i). { intros z n. unfold firstsOf, zget. destruct (Z.ltb_spec (i + 1) 0); [lia|]. destruct (Z.ltb_spec i 0); [lia|]. replace (Z.to_nat (i + 1)) with (Datatypes.S (Z.to_nat i)) by lia. reflexivity. }
    rewrite !X in E. apply E. unfold zlen in *. cbn [length]. lia.
Qed.
Lemma built_same defs firsts fs p firsts' fs' p' : built defs firsts fs p -> built defs firsts' fs' p' -> firsts = firsts' /\ fs = fs' /\ p = p'.
Proof.
  intros [L F S (cs & M & B)] [L' F' S' (cs' & M' & B')]. assert (firsts = firsts').
  { apply sets_same; [congruence|exact S|exact S'|]. intros i t R. assert (R' : 0 <= i < zlen defs) by (unfold zlen in *; lia). rewrite (F i t R'), (F' i t R'). reflexivity. }
  subst firsts'. assert (cs = cs'). { rewrite <- M' in M. clear -M. revert cs' M. induction cs as [|c cs IH]; intros [|c' cs'] M; try discriminate; [reflexivity|]. cbn in M. injection M as -> M. f_equal. apply IH, M. }
  subst cs'. rewrite B in B'. injection B' as -> ->. auto.
Qed.
Lemma accepted_built defs firsts fs p : accepted defs firsts fs p -> built defs firsts fs p.
Proof. intros [A1 A2 A3 A4 A5 A6 A7 A8]. split; assumption. Qed.
Theorem verdict_order defs o1 o2 o3 o1' o2' o3' : described defs -> defs <> [] ->
  Permutation o1 (indexes (length defs)) -> Permutation o2 (indexes (length defs)) -> Permutation o3 (indexes (length defs)) ->
  Permutation o1' (indexes (length defs)) -> Permutation o2' (indexes (length defs)) -> Permutation o3' (indexes (length defs)) ->
  exists n, forall fuel fuel', (n <= fuel)%nat -> (n <= fuel')%nat -> sameVerdict (checkNodes fuel o1 o2 o3 defs) (checkNodes fuel' o1' o2' o3' defs).
Proof.
  intros D NE P1 P2 P3 P1' P2' P3'. destruct (description_checked_full defs D NE o1 o2 o3 P1 P2 P3) as (n & H). destruct (description_checked_full defs D NE o1' o2' o3' P1' P2' P3') as (n' & H').
  exists (n + n')%nat. intros fuel fuel' F F'. specialize (H fuel ltac:(lia)). specialize (H' fuel' ltac:(lia)).
  (* facts that exclude each other *)
  assert (XU : forall ns, explained defs (EUndefined ns) -> ~ allDefined defs).
  { intros ns (X1 & _ & X3) A. destruct ns as [|j ns]; [contradiction|]. destruct (proj1 (X3 j) (or_introl eq_refl)) as ((i & R) & N). apply N, A, (ds_refers _ D i j R). }
  assert (XN : forall ns, explained defs (EUnused ns) -> ~ allReachable defs).
  { intros ns (_ & X1 & _ & X3) A. destruct ns as [|j ns]; [contradiction|]. destruct (proj1 (X3 j) (or_introl eq_refl)) as (R & N). apply N, A, R. }
  assert (XR : forall ns, explained defs (EUnresolved ns) -> ~ allBegin defs).
  { intros ns (_ & _ & X1 & _ & X3) A. destruct ns as [|j ns]; [contradiction|]. destruct (proj1 (X3 j) (or_introl eq_refl)) as (R & N). apply N, A, R. }
  destruct (checkNodes fuel o1 o2 o3 defs) as [((firsts, fs), p)|e| |]; try contradiction; destruct (checkNodes fuel' o1' o2' o3' defs) as [((firsts', fs'), p')|e'| |]; try contradiction.
  - cbn. destruct H as (H & _), H' as (H' & _). destruct (built_same defs _ _ _ _ _ _ (accepted_built _ _ _ _ H) (accepted_built _ _ _ _ H')) as (-> & -> & ->). reflexivity.
  - destruct H as (H & C), H' as (H' & C'). destruct e' as [ns|ns|ns|ns].
    + exact (XU ns H' (ac_defined _ _ _ _ H)).
    + exact (XN ns H' (ac_reachable _ _ _ _ H)).
    + exact (XR ns H' (ac_begin _ _ _ _ H)).
    + destruct C' as (firsts' & fs' & p' & B & C'). destruct (built_same defs _ _ _ _ _ _ (accepted_built _ _ _ _ H) B) as (-> & -> & ->). cbn.
      destruct H' as (_ & _ & _ & X & _). destruct ns as [|j ns]; [contradiction|]. destruct (proj1 (C' j) (or_introl eq_refl)) as (R & CJ). exact (C j R CJ).
  - destruct H as (H & C), H' as (H' & C'). destruct e as [ns|ns|ns|ns].
    + exact (XU ns H (ac_defined _ _ _ _ H')).
    + exact (XN ns H (ac_reachable _ _ _ _ H')).
    + exact (XR ns H (ac_begin _ _ _ _ H')).
    + destruct C as (firsts & fs & p & B & C). destruct (built_same defs _ _ _ _ _ _ (accepted_built _ _ _ _ H') B) as (-> & -> & ->). cbn.
      destruct H as (_ & _ & _ & X & _). destruct ns as [|j ns]; [contradiction|]. destruct (proj1 (C j) (or_introl eq_refl)) as (R & CJ). exact (C' j R CJ).
  - destruct H as (H & C), H' as (H' & C'). destruct e as [ns|ns|ns|ns]; destruct e' as [ns'|ns'|ns'|ns']; cbn [sameVerdict];
      try exact (XU _ H (proj1 H')); try exact (XU _ H' (proj1 H)); try exact (XN _ H (proj1 (proj2 H'))); try exact (XN _ H' (proj1 (proj2 H)));
      try exact (XR _ H (proj1 (proj2 (proj2 H')))); try exact (XR _ H' (proj1 (proj2 (proj2 H)))).
    + destruct H as (_ & N & X), H' as (_ & N' & X'). apply NoDup_Permutation; [exact N|exact N'|]. intros j. rewrite X, X'. reflexivity.
    + destruct H as (_ & _ & N & X), H' as (_ & _ & N' & X'). apply NoDup_Permutation; [exact N|exact N'|]. intros j. rewrite X, X'. reflexivity.
    + destruct H as (_ & _ & _ & N & X), H' as (_ & _ & _ & N' & X'). apply NoDup_Permutation; [exact N|exact N'|]. intros j. rewrite X, X'. reflexivity.
    + destruct H as (_ & _ & _ & _ & N & _), H' as (_ & _ & _ & _ & N' & _). destruct C as (firsts & fs & p & B & C), C' as (firsts' & fs' & p' & B' & C').
      destruct (built_same defs _ _ _ _ _ _ B B') as (_ & -> & ->). apply NoDup_Permutation; [exact N|exact N'|]. intros j. rewrite C, C'. reflexivity.
Qed.
(** Full statement: the set of a node has a token exactly when some string of the node starts with it.  Holds when no node
    stands for the empty string and every node stands for some string. *)
Theorem first_sets_exact_partial defs o1 o2 o3 : described defs -> defs <> [] -> neverEmpty defs -> productive defs ->
  Permutation o1 (indexes (length defs)) -> Permutation o2 (indexes (length defs)) -> Permutation o3 (indexes (length defs)) ->
  exists n, forall fuel, (n <= fuel)%nat -> forall firsts fs p, checkNodes fuel o1 o2 o3 defs = Good (firsts, fs, p) ->
    length firsts = length defs /\ (forall i t, 0 <= i < zlen defs -> (In t (firstsOf firsts i) <-> exists w, produces defs (CNode i) (t :: w))).
Proof.
  intros D NE NEV PR P1 P2 P3. destruct (first_sets_least defs o1 o2 o3 D NE P1 P2 P3) as (n & H). exists n. intros fuel F firsts fs p E. destruct (H fuel F firsts fs p E) as (L & X).
  split; [exact L|]. intros i t R. rewrite (proj2 (X i R) t). split; [apply (first_produces defs D PR)|].
  intros (w & P). destruct (proj1 (produces_first defs D NEV) _ _ P t w eq_refl) as (x & HX & T). inversion HX; subst. exact T.
Qed.

(** C16.  Nodes reported lead to nodes that begin with themselves. *)
Theorem recursion_reported_real defs o1 o2 o3 : described defs -> defs <> [] ->
  Permutation o1 (indexes (length defs)) -> Permutation o2 (indexes (length defs)) -> Permutation o3 (indexes (length defs)) ->
  exists n, forall fuel, (n <= fuel)%nat -> forall ns, checkNodes fuel o1 o2 o3 defs = Bad (ERecursion ns) ->
    ns <> [] /\ NoDup ns /\ forall i, In i ns -> exists j, clos_refl_trans Z (leftCorner defs) i j /\ leftRecursive (leftCorner defs) j.
Proof.
  intros D NE P1 P2 P3. destruct (description_checked defs D NE o1 o2 o3 P1 P2 P3) as (n & H). exists n. intros fuel F ns E. specialize (H fuel F). rewrite E in H.
  destruct H as (_ & _ & _ & X & N & Y & _). split; [exact X|]. split; [exact N|]. intros i I. apply Y, I.
Qed.
Lemma corner_empty defs i j : neverEmpty defs -> (leftCornerOrEmpty defs i j <-> leftCorner defs i j).
Proof.
  intros NEV. split.
  - intros (d & v & u & w & G & S & E). destruct v as [|x v]; [exists d, u, w; auto|]. inversion E as [|? ? (k & u' & _ & P) _]; subst. destruct (NEV k P).
  - intros (d & u & w & G & S). exists d, [], u, w. auto.
Qed.
Lemma trans_iff (R R' : Z -> Z -> Prop) : (forall i j, R i j <-> R' i j) -> forall i j, clos_trans Z R i j -> clos_trans Z R' i j.
Proof. intros E i j H. induction H; [apply t_step, E; assumption|eapply t_trans; eassumption]. Qed.
Lemma refl_trans_iff (R R' : Z -> Z -> Prop) : (forall i j, R i j <-> R' i j) -> forall i j, clos_refl_trans Z R i j -> clos_refl_trans Z R' i j.
Proof. intros E i j H. induction H; [apply rt_step, E; assumption|apply rt_refl|eapply rt_trans; eassumption]. Qed.
(** Full statement: a description that passes the other checks is rejected exactly when some node can begin with itself, nodes
    before it being empty.  Holds when no node stands for the empty string and no node begins only with the end of input. *)
Theorem recursion_exact_partial defs o1 o2 o3 : described defs -> defs <> [] -> neverEmpty defs -> tokenFirst defs ->
  (forall i j, refers defs i j -> exists d, defined defs j d) -> (forall i, 0 <= i < zlen defs -> reachable defs i) ->
  Permutation o1 (indexes (length defs)) -> Permutation o2 (indexes (length defs)) -> Permutation o3 (indexes (length defs)) ->
  exists n, forall fuel, (n <= fuel)%nat ->
    ((exists ns, checkNodes fuel o1 o2 o3 defs = Bad (ERecursion ns)) <-> exists i, leftRecursive (leftCornerOrEmpty defs) i) /\
    ((exists t, checkNodes fuel o1 o2 o3 defs = Good t) <-> ~ exists i, leftRecursive (leftCornerOrEmpty defs) i) /\
    (forall ns, checkNodes fuel o1 o2 o3 defs = Bad (ERecursion ns) ->
      forall i, In i ns <-> 0 <= i < zlen defs /\ exists j, clos_refl_trans Z (leftCornerOrEmpty defs) i j /\ leftRecursive (leftCornerOrEmpty defs) j).
Proof.
  intros D NE NEV TF AD AR P1 P2 P3. destruct (description_checked defs D NE o1 o2 o3 P1 P2 P3) as (n & H). exists n. intros fuel F. specialize (H fuel F).
  assert (CE : forall i j, leftCornerOrEmpty defs i j <-> leftCorner defs i j) by (intros; apply corner_empty, NEV).
  assert (CE' : forall i j, leftCorner defs i j <-> leftCornerOrEmpty defs i j) by (intros; symmetry; apply CE).
  assert (RG : forall i, leftRecursive (leftCorner defs) i -> 0 <= i < zlen defs).
  { intros i LR. apply clos_trans_t1n in LR. assert (Y : exists k, leftCorner defs i k) by (inversion LR; eauto). destruct Y as (k & d & u & w & G & _). eapply zget_Some_inv, G. }
  destruct (checkNodes fuel o1 o2 o3 defs) as [((firsts, fs), p)|e| |]; try contradiction.
  - assert (N : ~ exists i, leftRecursive (leftCornerOrEmpty defs) i). { intros (i & LR). apply (ac_flat _ _ _ _ H TF i). exact (trans_iff _ _ CE _ _ LR). }
    split; [|split; [|discriminate]]; [split; [intros (ns & E); discriminate|contradiction]|]. split; [auto|eauto].
  - destruct e as [ns|ns|ns|ns]; cbn [explained] in H.
    + exfalso. destruct H as (X1 & X2 & X3). destruct ns as [|j ns]; [contradiction|]. destruct (proj1 (X3 j) (or_introl eq_refl)) as ((i & R) & N). apply N, (AD i j R).
    + exfalso. destruct H as (_ & X1 & X2 & X3). destruct ns as [|j ns]; [contradiction|]. destruct (proj1 (X3 j) (or_introl eq_refl)) as (R & N). apply N, AR, R.
    + exfalso. destruct H as (_ & _ & X1 & X2 & X3). destruct ns as [|j ns]; [contradiction|]. destruct (proj1 (X3 j) (or_introl eq_refl)) as (R & N). destruct (TF j R) as (t & _ & T). apply N. eauto.
    + destruct H as (_ & _ & _ & X & _ & Y & Z0). assert (EX : exists i, leftRecursive (leftCornerOrEmpty defs) i).
      { destruct ns as [|i ns]; [contradiction|]. destruct (Y i (or_introl eq_refl)) as (_ & j & _ & LR). exists j. exact (trans_iff _ _ CE' _ _ LR). }
      split; [split; [auto|eauto]|]. split; [split; [intros (t & E); discriminate|contradiction]|].
      intros ns' E. injection E as <-. intros i. split.
      * intros I. destruct (Y i I) as (R & j & A & LR). split; [exact R|]. exists j. split; [exact (refl_trans_iff _ _ CE' _ _ A)|exact (trans_iff _ _ CE' _ _ LR)].
      * intros (R & j & A & LR). apply (Z0 TF i j R); [exact (refl_trans_iff _ _ CE _ _ A)|exact (trans_iff _ _ CE _ _ LR)].
Qed.
(** ** Examples *)
Fixpoint writtenb (c : chunk) : bool :=
  match c with
  | CTok t => 0 <=? t
  | CEoi => true
  | CNode i => 0 <=? i
  | CVar l => negb (match l with [] => true | _ => false end) && forallb writtenb l
  | CGroup opt rep l => negb (match l with [] => true | _ => false end) && implb rep opt && forallb writtenb l
  end.
Lemma writtenb_ok : forall c, writtenb c = true -> written c.
Proof.
  induction c as [t| |i|opt rep l IH|l IH] using chunk_nest; intros H; cbn [writtenb] in H.
  - apply W_tok. lia.
  - apply W_eoi.
  - apply W_node. lia.
  - apply andb_true_iff in H. destruct H as (H & F). apply andb_true_iff in H. destruct H as (N & R). rewrite forallb_forall in F. apply W_group; [intros ->; discriminate|intros ->; destruct opt; [reflexivity|discriminate]|intros c I; apply IH; auto].
  - apply andb_true_iff in H. destruct H as (N & F). rewrite forallb_forall in F. apply W_var; [intros ->; discriminate|intros c I; apply IH; auto].
Qed.
Definition describedb (defs : list (option chunk)) : bool :=
  forallb (fun d => match d with Some c => writtenb c && forallb (fun j => (0 <=? j) && (j <? zlen defs)) (dependsOn c) | None => true end) defs &&
  forallb (fun j => match zget defs j with Some None => existsb (fun d => match d with Some c => smem j (dependsOn c) | None => false end) defs | _ => true end) (indexes (length defs)).
Lemma describedb_ok defs : describedb defs = true -> described defs.
Proof.
  intros H. apply andb_true_iff in H. destruct H as (A & B). rewrite forallb_forall in A, B. split.
  - intros i d G. pose proof (A _ (zget_In _ _ _ G)) as X. apply andb_true_iff in X. apply writtenb_ok, X.
  - intros i j (d & G & M). pose proof (A _ (zget_In _ _ _ G)) as X. apply andb_true_iff in X. destruct X as (_ & X). rewrite forallb_forall in X. apply depends_spec in M. specialize (X j M). lia.
  - intros j G. pose proof (zget_Some_inv _ _ _ G) as R. specialize (B j). rewrite G in B. assert (I : In j (indexes (length defs))) by (apply indexes_In; exact R). specialize (B I). apply existsb_exists in B. destruct B as ([c|] & IC & M); [|discriminate].
    apply In_zget in IC. destruct IC as (i & GI). exists i, c. split; [exact GI|]. apply depends_spec, smem_In, M.
Qed.

(** root = x, {",", x}; x = a | "(", root, ")";  tokens: a 0, comma 1, brackets 2, 3 *)
Definition dList : list (option chunk) :=
  [Some (CGroup false false [CNode 1; CGroup true true [CTok 1; CNode 1]]); Some (CGroup false false [CVar [CTok 0; CGroup false false [CTok 2; CNode 0; CTok 3]]])].
Lemma dList_cases i d : defined dList i d -> (i = 0 /\ zget dList 0 = Some (Some d)) \/ (i = 1 /\ zget dList 1 = Some (Some d)).
Proof. intros G. pose proof (zget_Some_inv _ _ _ G) as R. cbn in R. assert (i = 0 \/ i = 1) as [->| ->] by lia; auto. Qed.
Example dList_described : described dList.
Proof. apply describedb_ok. vm_compute. reflexivity. Qed.
Example dList_neverEmpty : neverEmpty dList.
Proof. apply solid_neverEmpty. intros i d G. destruct (dList_cases i d G) as [(_ & E)|(_ & E)]; vm_compute in E; injection E as <-; reflexivity. Qed.
Lemma dList_x : produces dList (CNode 1) [0].
Proof.
  eapply P_nested; [reflexivity|]. apply P_once. change [0] with ([0] ++ []). apply PS_cons; [|apply PS_nil]. eapply P_variant; [left; reflexivity|apply P_token].
Qed.
Example dList_productive : productive dList.
Proof.
  intros i R. assert (i = 0 \/ i = 1) as [->| ->] by (cbn in R; lia); [|eexists; exact dList_x].
  eexists. eapply P_nested; [reflexivity|]. apply P_once. apply PS_cons; [exact dList_x|]. apply PS_cons; [apply P_never|apply PS_nil].
Qed.
Example dList_tokenFirst : tokenFirst dList.
Proof.
  assert (X : firstToken dList 1 0). { eapply FT_token with (w := []); [reflexivity|]. apply D_once. change [STok 0] with ([STok 0] ++ []). apply DS_cons; [|apply DS_nil]. eapply D_variant; [left; reflexivity|apply D_token]. }
  intros i R. assert (i = 0 \/ i = 1) as [->| ->] by (cbn in R; lia); exists 0; (split; [lia|]); [|exact X].
  eapply FT_nested with (u := 0) (w := []); [reflexivity| |exact X]. apply D_once. change [SNode 1 0] with ([SNode 1 0] ++ ([] ++ [])). apply DS_cons; [apply D_nested; exact I|]. apply DS_cons; [apply D_never|apply DS_nil].
Qed.
Example dList_good : exists fs p, checkNodes 20 [1; 0] [0; 1] [1; 0] dList = Good ([[0; 2]; [0; 2]], fs, p).
Proof. do 2 eexists. vm_compute. reflexivity. Qed.
(** x is not defined *)
Example dList_undefined : described [Some (CGroup false false [CNode 1; CTok 0]); None] /\
  checkNodes 20 [1; 0] [0; 1] [1; 0] [Some (CGroup false false [CNode 1; CTok 0]); None] = Bad (EUndefined [1]).
Proof. split; [apply describedb_ok|]; vm_compute; reflexivity. Qed.
(** root = a; x = y; y = x, a; *)
Example dList_unused : described [Some (CTok 0); Some (CNode 2); Some (CGroup false false [CNode 1; CTok 0])] /\
  checkNodes 20 [1; 0; 2] [0; 1; 2] [2; 1; 0] [Some (CTok 0); Some (CNode 2); Some (CGroup false false [CNode 1; CTok 0])] = Bad (EUnused [1; 2]).
Proof. split; [apply describedb_ok|]; vm_compute; reflexivity. Qed.
(** root = root, a; *)
Example dList_unresolved : described [Some (CGroup false false [CNode 0; CTok 0])] /\
  checkNodes 20 [0] [0] [0] [Some (CGroup false false [CNode 0; CTok 0])] = Bad (EUnresolved [0]).
Proof. split; [apply describedb_ok|]; vm_compute; reflexivity. Qed.
(** root = a | x; x = [b], x, c | d; *)
Definition dRec : list (option chunk) :=
  [Some (CVar [CTok 0; CNode 1]); Some (CVar [CGroup false false [CGroup true false [CTok 1]; CNode 1; CTok 2]; CTok 3])].
Example dRec_rejected : described dRec /\ checkNodes 20 [1; 0] [0; 1] [1; 0] dRec = Bad (ERecursion [0; 1]).
Proof. split; [apply describedb_ok|]; vm_compute; reflexivity. Qed.
Example dRec_neverEmpty : neverEmpty dRec.
Proof.
  apply solid_neverEmpty. intros i d G. pose proof (zget_Some_inv _ _ _ G) as R. cbn in R. assert (i = 0 \/ i = 1) as [->| ->] by lia; unfold defined in G; vm_compute in G; injection G as <-; reflexivity.
Qed.
Example dRec_tokenFirst : tokenFirst dRec.
Proof.
  intros i R. assert (i = 0 \/ i = 1) as [->| ->] by (cbn in R; lia); [exists 0|exists 3]; (split; [lia|]); (eapply FT_token; [reflexivity|]).
  - eapply D_variant; [left; reflexivity|apply D_token].
  - eapply D_variant; [right; left; reflexivity|apply D_token].
Qed.

(** ** Refutations *)
(** C15: root = x, b; x = [a]; tokens a 0, b 1.  The string "b" belongs to the root, its set is {a}. *)
Definition dSkip : list (option chunk) := [Some (CGroup false false [CNode 1; CTok 1]); Some (CGroup true false [CTok 0])].
(** root = a | x; x = b, x;  The set of the root is {a, b}, no string begins with b. *)
Definition dEndless : list (option chunk) := [Some (CVar [CTok 0; CNode 1]); Some (CGroup false false [CTok 1; CNode 1])].
Lemma dEndless_none : (forall c w, produces dEndless c w -> c <> CNode 1 /\ (forall opt rep, c = CGroup opt rep [CTok 1; CNode 1] -> opt = true)) /\ (forall l w, producesSeq dEndless l w -> l <> [CTok 1; CNode 1] /\ l <> [CNode 1]).
Proof.
  apply produces_both; try (intros; split; intros; discriminate).
  - intros i d w G _ (IH1 & IH2). split; [|discriminate]. intros E. injection E as ->. unfold defined in G. vm_compute in G. injection G as <-. specialize (IH2 _ _ eq_refl). discriminate.
  - intros opt rep l w _ (IH & _). split; [discriminate|]. intros o r E. injection E as _ _ ->. contradiction.
  - intros rep l. split; [discriminate|]. intros o r E. injection E as <- _ _. reflexivity.
  - intros opt l w v _ (IH & _) _ _. split; [discriminate|]. intros o r E. injection E as _ _ ->. contradiction.
  - intros c l w v _ (IH1 & _) _ (_ & IH2). split; intros E; injection E as -> ->; contradiction.
Qed.
Theorem first_sets_exact_refuted :
  (exists defs i t w fuel firsts fs p, described defs /\ checkNodes fuel (indexes (length defs)) (indexes (length defs)) (indexes (length defs)) defs = Good (firsts, fs, p) /\
     productive defs /\ produces defs (CNode i) (t :: w) /\ ~ In t (firstsOf firsts i)) /\
  (exists defs i t fuel firsts fs p, described defs /\ checkNodes fuel (indexes (length defs)) (indexes (length defs)) (indexes (length defs)) defs = Good (firsts, fs, p) /\
     neverEmpty defs /\ 0 <= i < zlen defs /\ In t (firstsOf firsts i) /\ ~ exists w, produces defs (CNode i) (t :: w)).
Proof.
  split.
  - exists dSkip, 0, 1, [], 20%nat. do 3 eexists. split; [apply describedb_ok; vm_compute; reflexivity|]. split; [vm_compute; reflexivity|].
    assert (X : produces dSkip (CNode 1) []) by (eapply P_nested; [reflexivity|]; apply P_never).
    assert (Y : produces dSkip (CNode 0) [1]). { eapply P_nested; [reflexivity|]. apply P_once. change [1] with ([] ++ ([1] ++ [])). apply PS_cons; [exact X|]. apply PS_cons; [apply P_token|apply PS_nil]. }
    split; [|split; [exact Y|]].
    + intros i R. assert (i = 0 \/ i = 1) as [->| ->] by (cbn in R; lia); eauto.
    + vm_compute. intros [E|[]]. discriminate.
  - exists dEndless, 0, 1, 20%nat. do 3 eexists. split; [apply describedb_ok; vm_compute; reflexivity|]. split; [vm_compute; reflexivity|].
    split; [|split; [cbn; lia|split; [vm_compute; auto|]]].
    + apply solid_neverEmpty. intros i d G. pose proof (zget_Some_inv _ _ _ G) as R. cbn in R. assert (i = 0 \/ i = 1) as [->| ->] by lia; unfold defined in G; vm_compute in G; injection G as <-; reflexivity.
    + intros (w & P). inversion P as [| |? d ? G P'| | | |]; subst. unfold defined in G. vm_compute in G. injection G as <-. inversion P' as [| | |? c ? I Q| | |]; subst. destruct I as [<-|[<-|[]]].
      * inversion Q.
      * apply (proj1 (proj1 dEndless_none _ _ Q)). reflexivity.
Qed.
(** C16: root = root | $;  and  root = x, root | a; x = [b]; *)
Definition dEoi : list (option chunk) := [Some (CVar [CNode 0; CEoi])].
Definition dNull : list (option chunk) := [Some (CVar [CGroup false false [CNode 1; CNode 0]; CTok 0]); Some (CGroup true false [CTok 1])].
Theorem recursion_exact_refuted :
  (exists defs fuel t i, described defs /\ neverEmpty defs /\ checkNodes fuel (indexes (length defs)) (indexes (length defs)) (indexes (length defs)) defs = Good t /\ leftRecursive (leftCorner defs) i) /\
  (exists defs fuel t i, described defs /\ tokenFirst defs /\ checkNodes fuel (indexes (length defs)) (indexes (length defs)) (indexes (length defs)) defs = Good t /\ leftRecursive (leftCornerOrEmpty defs) i).
Proof.
  split.
  - exists dEoi, 20%nat. eexists. exists 0. split; [apply describedb_ok; vm_compute; reflexivity|]. split; [|split; [vm_compute; reflexivity|]].
    + apply solid_neverEmpty. intros i d G. pose proof (zget_Some_inv _ _ _ G) as R. cbn in R. assert (i = 0) as -> by lia. unfold defined in G. vm_compute in G. injection G as <-. reflexivity.
    + apply t_step. eexists. exists 0, []. split; [reflexivity|]. eapply D_variant; [left; reflexivity|]. apply D_nested. exact I.
  - exists dNull, 20%nat. eexists. exists 0. split; [apply describedb_ok; vm_compute; reflexivity|]. split; [|split; [vm_compute; reflexivity|]].
    + intros i R. assert (i = 0 \/ i = 1) as [->| ->] by (cbn in R; lia); [exists 0|exists 1]; (split; [lia|]); (eapply FT_token with (w := []); [reflexivity|]).
      * eapply D_variant; [right; left; reflexivity|apply D_token].
      * apply D_once. change [STok 1] with ([STok 1] ++ []). apply DS_cons; [apply D_token|apply DS_nil].
    + apply t_step. eexists. exists [SNode 1 0], 0, []. split; [reflexivity|]. split.
      * eapply D_variant; [left; reflexivity|]. apply D_once. change ([SNode 1 0] ++ [SNode 0 0]) with ([SNode 1 0] ++ ([SNode 0 0] ++ [])). apply DS_cons; [apply D_nested; exact I|]. apply DS_cons; [apply D_nested; exact I|apply DS_nil].
      * constructor; [|constructor]. exists 1, 0. split; [reflexivity|]. eapply P_nested; [reflexivity|]. apply P_never.
Qed.
Print Assumptions undefined_nodes_rejected.
Print Assumptions unused_nodes_rejected.
Print Assumptions first_sets_least.
Print Assumptions verdict_order.
Print Assumptions first_sets_exact_partial.
Print Assumptions first_sets_exact_refuted.
Print Assumptions recursion_reported_real.
Print Assumptions recursion_exact_partial.
Print Assumptions recursion_exact_refuted.
Print Assumptions description_checked.
