(** Dropping unused states in every case: it does not fail, states keep their rules but for the targets, targets are in range. *)
From Coq Require Import ZArith List Bool Lia Sorted.
From Verif Require Import Base BaseProofs Grammar LangBuild LangSpec LangProofs LangFrame LangComplete LangTotal LangTables LangDrop LangShare.
Import ListNotations.
Open Scope Z_scope.

(** same rule but for the target: the final state stays, others become indexes below [b] *)
Definition like (b : Z) (r' r : rule) : Prop :=
  rToken r' = rToken r /\ rNode r' = rNode r /\ (rState r < 0 -> rState r' = rState r) /\ (0 <= rState r -> 0 <= rState r' < b).
Lemma like_mono b b' r' r : b <= b' -> like b r' r -> like b' r' r.
Proof. intros B (A1 & A2 & A3 & A4). split; [exact A1|]. split; [exact A2|]. split; [exact A3|]. intros X. specialize (A4 X). lia. Qed.
Lemma like_refl b r : rState r < b -> like b r r.
Proof. intros B. repeat split; lia. Qed.
Definition posLike (b : Z) (m' m : list (Z * list rule)) : Prop := Forall2 (fun x y => fst x = fst y /\ Forall2 (like b) (snd x) (snd y)) m' m.
Definition negLike (b : Z -> Z) (m' m : list (Z * (Z * rule))) : Prop :=
  Forall2 (fun x y => fst x = fst y /\ fst (snd x) = fst (snd y) /\ like (b (fst y)) (snd (snd x)) (snd (snd y))) m' m.
Definition likeE (b : Z) (b' : Z -> Z) (e' e : entry) : Prop := eTypes e' = eTypes e /\ posLike b (ePos e') (ePos e) /\ negLike b' (eNeg e') (eNeg e).

Lemma F2_map_fst {A} (P : Z * A -> Z * A -> Prop) m' m : Forall2 (fun x y => fst x = fst y /\ P x y) m' m -> map fst m' = map fst m.
Proof. induction 1 as [|x y l l' (E & _) F IH]; [reflexivity|]. cbn [map]. rewrite E, IH. reflexivity. Qed.
Lemma F2_impl {A B} (P Q : A -> B -> Prop) l l' : (forall x y, In y l' -> P x y -> Q x y) -> Forall2 P l l' -> Forall2 Q l l'.
Proof. intros H. induction 1 as [|x y l l' E F IH]; constructor; [apply H; [left; reflexivity|exact E]|]. apply IH. intros a b B'. apply H. right. exact B'. Qed.
Lemma likeE_ok b b' e' e : likeE b b' e' e -> entryOk e -> entryOk e'.
Proof.
  intros (_ & P & N) [O1 O2 O3 O4]. unfold posLike, negLike in *.
  split.
  - rewrite (F2_map_fst _ _ _ P). exact O1.
  - rewrite (F2_map_fst (fun x y => fst (snd x) = fst (snd y) /\ like (b' (fst y)) (snd (snd x)) (snd (snd y))) _ _ N). exact O2.
  - intros k rs X. destruct (Forall2_In_l _ _ _ _ P X) as ((k0, rs0) & Y & E & F). cbn [fst snd] in *. subst k0. destruct (O3 k rs0 Y) as (A & B & C).
    split; [exact A|]. split; [intros ->; inversion F; subst; apply B; reflexivity|]. intros r R. destruct (Forall2_In_l _ _ _ _ F R) as (r0 & R0 & L & _). rewrite L. apply C, R0.
  - intros k i r X. destruct (Forall2_In_l _ _ _ _ N X) as ((k0, (i0, r0)) & Y & E & E2 & L & _). cbn [fst snd] in *. subst k0 i0. rewrite L. eapply O4, Y.
Qed.
Lemma likeE_rules b b' e' e r' : likeE b b' e' e -> (forall k, b' k <= b) -> In r' (allRules e') -> exists r, In r (allRules e) /\ like b r' r.
Proof.
  intros (_ & P & N) B X. rewrite allRules_eq, in_app_iff in X. destruct X as [X|X].
  - apply posRules_In in X. destruct X as (k & rs & X & R). destruct (Forall2_In_l _ _ _ _ P X) as ((k0, rs0) & Y & _ & F). cbn [snd] in F.
    destruct (Forall2_In_l _ _ _ _ F R) as (r & R0 & L). exists r. split; [|exact L]. rewrite allRules_eq, in_app_iff. left. apply posRules_In. eauto.
  - apply negRules_In in X. destruct X as (k & i & X). destruct (Forall2_In_l _ _ _ _ N X) as ((k0, (i0, r)) & Y & _ & _ & L). cbn [fst snd] in L.
    exists r. split; [rewrite allRules_eq, in_app_iff; right; apply negRules_In; eauto|]. eapply like_mono, L. apply B.
Qed.
Lemma likeE_rules_back b b' e' e r : likeE b b' e' e -> (forall k, b' k <= b) -> In r (allRules e) -> exists r', In r' (allRules e') /\ like b r' r.
Proof.
  intros (_ & P & N) B X. rewrite allRules_eq, in_app_iff in X. destruct X as [X|X].
  - apply posRules_In in X. destruct X as (k & rs & X & R). destruct (Forall2_In_r _ _ _ _ P X) as ((k0, rs0) & Y & _ & F). cbn [snd] in F.
    destruct (Forall2_In_r _ _ _ _ F R) as (r' & R0 & L). exists r'. split; [|exact L]. rewrite allRules_eq, in_app_iff. left. apply posRules_In. eauto.
  - apply negRules_In in X. destruct X as (k & i & X). destruct (Forall2_In_r _ _ _ _ N X) as ((k0, (i0, r')) & Y & _ & _ & L). cbn [fst snd] in L.
    exists r'. split; [rewrite allRules_eq, in_app_iff; right; apply negRules_In; eauto|]. eapply like_mono, L. apply B.
Qed.

(** [id] holds the same rule everywhere *)
Definition cellsFair (es : list entry) : Prop := forall e e' k k' id r r', In e es -> In e' es -> In (k, (id, r)) (eNeg e) -> In (k', (id, r')) (eNeg e') -> k = k' /\ r = r'.

Lemma zget_same {A B} (l : list A) (m : list B) i x : length l = length m -> zget l i = Some x -> exists y, zget m i = Some y.
Proof. intros L G. apply zget_Some_inv in G. destruct (zget_has m i) as (y & Y & _); [unfold zlen in *; lia|eauto]. Qed.

Section Remap.
Variable ni : list Z.
Variable cur : Z.
Hypothesis NI : forall i j, zget ni i = Some j -> 0 <= j < cur.
Hypothesis CN : cur <= zlen ni.
Variable es : list entry.
Hypothesis OK : forall e, In e es -> entryOk e.
Hypothesis CF : cellsFair es.

Lemma remap_like b r r0 : b <= zlen ni -> like b r r0 -> exists r', remapRule ni r = Some r' /\ like cur r' r0.
Proof.
  intros B (L1 & L2 & L3 & L4). unfold remapRule. destruct (Z.leb_spec 0 (rState r)) as [LE|LT].
  - assert (P : 0 <= rState r0) by (destruct (Z.lt_ge_cases (rState r0) 0); [specialize (L3 H); lia|lia]). specialize (L4 P).
    destruct (zget_has ni (rState r)) as (j & G & _); [lia|]. rewrite G. cbn [obind]. eexists. split; [reflexivity|]. split; [exact L1|]. split; [exact L2|]. cbn [rState].
    pose proof (NI _ _ G). split; lia.
  - assert (P : rState r0 < 0) by (destruct (Z.lt_ge_cases (rState r0) 0); [assumption|specialize (L4 H); lia]). eexists. split; [reflexivity|]. split; [exact L1|]. split; [exact L2|]. split; [auto|lia].
Qed.
Lemma set_like id r b m' m : negLike b m' m -> (forall k, cur <= b k) -> (forall k r0, In (k, (id, r0)) m -> like cur r r0) ->
  negLike b (map (fun '(k, (i, r')) => (k, (i, if i =? id then r else r'))) m') m.
Proof.
  intros N B H. unfold negLike in *. induction N as [|(k', (i', r')) (k, (i, r0)) m' m (E1 & E2 & L) N IH]; [constructor|]. cbn [fst snd] in *. subst k' i'.
  cbn [map]. constructor; [|apply IH; intros k1 r1 X; apply (H k1 r1); right; exact X]. cbn [fst snd]. split; [reflexivity|]. split; [reflexivity|].
  destruct (Z.eqb_spec i id) as [->|NE]; [|exact L]. eapply like_mono; [apply B|]. apply (H k r0). left. reflexivity.
Qed.
(** the key itself is done *)
Lemma set_like_key id r b k m' m r0 : negLike b m' m -> NoDup (map fst m) -> In (k, (id, r0)) m -> like cur r r0 -> (forall x, x <> k -> cur <= b x) ->
  (forall k' r0', In (k', (id, r0')) m -> like cur r r0') ->
  negLike (fun x => if x =? k then cur else b x) (map (fun '(k, (i, r')) => (k, (i, if i =? id then r else r'))) m') m.
Proof.
  intros N ND I L B H. unfold negLike in *.
  assert (X : forall y, In y m -> fst y = k -> fst (snd y) = id).
  { intros (k1, (i1, r1)) Y E. cbn in *. subst k1. pose proof (proj2 (mget_In _ _ _ ND) Y) as A. pose proof (proj2 (mget_In _ _ _ ND) I) as B'. rewrite A in B'. injection B' as -> _. reflexivity. }
  clear I ND. induction N as [|(k', (i', r')) (k1, (i, r1)) m' m (E1 & E2 & L') N IH]; [constructor|]. cbn [fst snd] in *. subst k' i'.
  cbn [map]. constructor; [|apply IH; [intros k2 r2 X2; apply (H k2 r2); right; exact X2|intros y Y; apply X; right; exact Y]]. cbn [fst snd]. split; [reflexivity|]. split; [reflexivity|].
  pose proof (X (k1, (i, r1)) (or_introl eq_refl)) as X1. cbn [fst snd] in X1.
  destruct (Z.eqb_spec i id) as [->|NE].
  - assert (Q : like cur r r1) by (apply (H k1 r1); left; reflexivity). destruct (Z.eqb_spec k1 k); [exact Q|]. eapply like_mono; [apply B; assumption|exact Q].
  - destruct (Z.eqb_spec k1 k) as [->|_]; [contradiction NE; auto|exact L'].
Qed.

(** states before [si] are done, [si] has the keys [ks] to do *)
Definition bound (si : Z) (ks : list Z) (i : Z) (k : Z) : Z := if i <? si then cur else if i =? si then (if smem k ks then zlen ni else cur) else zlen ni.
Record progress (si : Z) (pos : bool) (ks : list Z) (cs : list entry) : Prop := mkProgress {
  pg_len : length cs = length es;
  pg_like : forall i c e, zget cs i = Some c -> zget es i = Some e -> likeE (if (i <? si) || ((i =? si) && pos) then cur else zlen ni) (bound si ks i) c e
}.
Lemma setCell_zget id r cs i c : zget (setCell id r cs) i = Some c -> exists c0, zget cs i = Some c0 /\ c = mkEntry (eTypes c0) (ePos c0) (map (fun '(k, (j, r')) => (k, (j, if j =? id then r else r'))) (eNeg c0)).
Proof.
  unfold setCell, zget. destruct (i <? 0); [discriminate|]. rewrite nth_error_map. destruct (nth_error cs (Z.to_nat i)) as [c0|]; cbn; [|discriminate]. intros [= <-]. eauto.
Qed.
Lemma bound_le si ks i k : bound si ks i k <= zlen ni.
Proof. unfold bound. destruct (i <? si); [lia|]. destruct (i =? si); [destruct (smem k ks)|]; lia. Qed.
Lemma bound_ge si ks i k : cur <= bound si ks i k.
Proof. unfold bound. destruct (i <? si); [lia|]. destruct (i =? si); [destruct (smem k ks)|]; lia. Qed.
Lemma remapNeg_total si e : zget es si = Some e -> forall ks cs, NoDup ks -> (forall k, In k ks -> In k (map fst (eNeg e))) -> progress si true ks cs ->
  exists cs', remapNeg ni ks si cs = Some cs' /\ progress si true [] cs'.
Proof.
  intros G ks. induction ks as [|k ks IH]; intros cs ND SUB PG.
  - exists cs. split; [reflexivity|exact PG].
  - cbn [remapNeg]. destruct PG as [LEN LK]. destruct (zget_same es cs si e (eq_sym LEN) G) as (c & Gc). rewrite Gc. cbn [obind].
    pose proof (LK si c e Gc G) as (_ & _ & N). pose proof (OK e (zget_In _ _ _ G)) as Oe.
    pose proof (SUB k (or_introl eq_refl)) as IK. apply in_map_iff in IK. destruct IK as ((k0 & (id & r0)) & E & IK). cbn in E. subst k0.
    destruct (Forall2_In_r _ _ _ _ N IK) as ((k1 & (id1 & r)) & I1 & E1 & E2 & L). cbn [fst snd] in *. subst k1 id1.
    assert (NDc : NoDup (map fst (eNeg c))). { unfold negLike in N. rewrite (F2_map_fst (fun x y => fst (snd x) = fst (snd y) /\ like (bound si (k :: ks) si (fst y)) (snd (snd x)) (snd (snd y))) _ _ N). exact (eo_neg e Oe). }
    rewrite (proj2 (mget_In _ _ _ NDc) I1). cbn [obind].
    destruct (remap_like _ _ _ (bound_le _ _ _ _) L) as (r' & R & L'). rewrite R. cbn [obind].
    apply NoDup_cons_iff in ND as (N1 & N2). apply IH; [exact N2|intros x X; apply SUB; right; exact X|].
    assert (FAIR : forall i e', zget es i = Some e' -> forall k' r1, In (k', (id, r1)) (eNeg e') -> like cur r' r1).
    { intros i e' Ge k' r1 X. destruct (CF e' e k' k id r1 r0 (zget_In _ _ _ Ge) (zget_In _ _ _ G) X IK) as (_ & ->). exact L'. }
    split.
    + unfold setCell. rewrite map_length. exact LEN.
    + intros i c' e' G1 G2. apply setCell_zget in G1. destruct G1 as (c0 & G0 & ->). destruct (LK i c0 e' G0 G2) as (A1 & A2 & A3). split; [exact A1|]. split; [exact A2|]. cbn [eNeg].
      destruct (Z.eq_dec i si) as [->|NE].
      * rewrite G in G2. injection G2 as <-.
        assert (X : negLike (fun x => if x =? k then cur else bound si (k :: ks) si x) (map (fun '(k, (i, r'0)) => (k, (i, if i =? id then r' else r'0))) (eNeg c0)) (eNeg e)).
        { eapply set_like_key; [exact A3|exact (eo_neg e Oe)|exact IK|exact L'|intros x _; apply bound_ge|apply (FAIR si e G)]. }
        unfold negLike in *. eapply F2_impl, X. intros x y _ (B1 & B2 & B3). split; [exact B1|]. split; [exact B2|]. eapply like_mono, B3.
        unfold bound. rewrite Z.ltb_irrefl, Z.eqb_refl. rewrite smem_cons. destruct (Z.eqb_spec (fst y) k) as [->|NE]; cbn [orb]; [|lia].
        destruct (smem k ks); lia.
      * assert (X : negLike (bound si (k :: ks) i) (map (fun '(k, (i, r'0)) => (k, (i, if i =? id then r' else r'0))) (eNeg c0)) (eNeg e')).
        { apply set_like; [exact A3|intros x; apply bound_ge|apply (FAIR i e' G2)]. }
        unfold negLike in *. eapply F2_impl, X. intros x y _ (B1 & B2 & B3). split; [exact B1|]. split; [exact B2|]. eapply like_mono, B3.
        unfold bound. destruct (i <? si); [lia|]. destruct (Z.eqb_spec i si); [contradiction|lia].
Qed.

Lemma mapM_like b rs' rs : b <= zlen ni -> Forall2 (like b) rs' rs -> exists xs, mapM (remapRule ni) rs' = Some xs /\ Forall2 (like cur) xs rs.
Proof.
  intros B. induction 1 as [|r' r rs' rs L F IH]; [exists []; split; [reflexivity|constructor]|]. destruct IH as (xs & X1 & X2). destruct (remap_like _ _ _ B L) as (x & R & L').
  exists (x :: xs). cbn [mapM]. rewrite R. cbn [obind]. rewrite X1. cbn [obind]. split; [reflexivity|constructor; assumption].
Qed.
Lemma mapM_posLike b m' m : b <= zlen ni -> posLike b m' m -> exists xs, mapM (fun '(k, rs) => do rs' <- mapM (remapRule ni) rs; Some (k, rs')) m' = Some xs /\ posLike cur xs m.
Proof.
  intros B. unfold posLike. induction 1 as [|(k, rs) (k0, rs0) m' m (E & F) P IH]; [exists []; split; [reflexivity|constructor]|]. destruct IH as (xs & X1 & X2). cbn [fst snd] in *. subst k0.
  destruct (mapM_like _ _ _ B F) as (ys & Y1 & Y2). exists ((k, ys) :: xs). cbn [mapM]. rewrite Y1. cbn [obind]. rewrite X1. cbn [obind]. split; [reflexivity|]. constructor; [split; [reflexivity|exact Y2]|exact X2].
Qed.
Lemma remapStates_total : forall n si cs, 0 <= si -> si + Z.of_nat n = zlen es -> (n = O \/ forall e, zget es si = Some e -> progress si false (map fst (eNeg e)) cs) -> (n = O -> progress si false [] cs) ->
  exists cs', remapStates ni n si cs = Some cs' /\ progress (zlen es) false [] cs'.
Proof.
  induction n as [|n IH]; intros si cs S0 SN PG P0.
  - exists cs. split; [reflexivity|]. replace (zlen es) with si by lia. apply P0. reflexivity.
  - cbn [remapStates]. destruct PG as [C|PG]; [discriminate|]. destruct (zget_has es si) as (e & G & IE); [lia|]. specialize (PG e G). destruct PG as [LEN LK].
    destruct (zget_same es cs si e (eq_sym LEN) G) as (c & Gc). rewrite Gc. cbn [obind]. destruct (LK si c e Gc G) as (T1 & P1 & N1).
    rewrite Z.ltb_irrefl, Z.eqb_refl in P1. cbn [orb andb] in P1. destruct (mapM_posLike _ _ _ (Z.le_refl _) P1) as (xs & X1 & X2). rewrite X1. cbn [obind].
    assert (ZC : zlen cs = zlen es) by (unfold zlen; lia). rewrite zset_Some by lia. cbn [obind].
    set (c1 := mkEntry (eTypes c) xs (eNeg c)). set (cs1 := upd cs (Z.to_nat si) c1).
    assert (G1 : forall i x, zget cs1 i = Some x -> i = si /\ x = c1 \/ i <> si /\ zget cs i = Some x).
    { intros i x Gx. destruct (Z.eq_dec i si) as [->|NE].
      - left. split; [reflexivity|]. unfold cs1, zget in Gx. destruct (si <? 0); [discriminate|]. rewrite nth_error_upd in Gx by (unfold zlen in *; lia). rewrite Nat.eqb_refl in Gx. congruence.
      - right. split; [exact NE|]. unfold cs1, zget in *. destruct (Z.ltb_spec i 0); [discriminate|]. rewrite nth_error_upd in Gx by (unfold zlen in *; lia). destruct (Nat.eqb_spec (Z.to_nat i) (Z.to_nat si)); [lia|exact Gx]. }
    assert (NDK : NoDup (map fst (eNeg e))) by exact (eo_neg e (OK e IE)).
    assert (KE : map fst (eNeg c) = map fst (eNeg e)).
    { exact (F2_map_fst (fun x y => fst (snd x) = fst (snd y) /\ like (bound si (map fst (eNeg e)) si (fst y)) (snd (snd x)) (snd (snd y))) _ _ N1). }
    destruct (remapNeg_total si e G (map fst (eNeg c)) cs1) as (cs2 & R2 & PG2).
    + rewrite KE. exact NDK.
    + rewrite KE. auto.
    + split; [unfold cs1; rewrite upd_length; exact LEN|]. intros i x e' Gx Ge. apply G1 in Gx. rewrite KE. destruct Gx as [(-> & ->)|(NE & Gx)].
      * rewrite G in Ge. injection Ge as <-. rewrite Z.ltb_irrefl, Z.eqb_refl. cbn [orb andb]. split; [exact T1|]. split; [exact X2|exact N1].
      * destruct (Z.eqb_spec i si); [contradiction|]. specialize (LK i x e' Gx Ge). destruct (Z.eqb_spec i si); [contradiction|]. exact LK.
    + rewrite R2. cbn [obind]. destruct PG2 as [LEN2 LK2].
      assert (NEXT : forall ks, (forall e', zget es (si + 1) = Some e' -> ks = map fst (eNeg e')) -> progress (si + 1) false ks cs2).
      { intros ks KS. split; [exact LEN2|]. intros i x e' Gx Ge. destruct (LK2 i x e' Gx Ge) as (A1 & A2 & A3). split; [exact A1|]. split.
        - destruct (Z.ltb_spec i si); destruct (Z.ltb_spec i (si + 1)); destruct (Z.eqb_spec i si); destruct (Z.eqb_spec i (si + 1)); cbn [orb andb] in *; try lia; exact A2.
        - unfold negLike in *. eapply F2_impl, A3. intros y z Iz (B1 & B2 & B3). split; [exact B1|]. split; [exact B2|]. eapply like_mono, B3. unfold bound.
          destruct (Z.ltb_spec i si); destruct (Z.ltb_spec i (si + 1)); destruct (Z.eqb_spec i si); destruct (Z.eqb_spec i (si + 1)); cbn [smem existsb]; try lia.
          subst i. rewrite (KS e' Ge). assert (SM : smem (fst z) (map fst (eNeg e')) = true). { apply smem_In, in_map, Iz. } rewrite SM. lia. }
      apply IH; [lia|lia| |].
      * destruct n; [left; reflexivity|]. right. intros e' Ge. apply NEXT. intros e2 G2. rewrite Ge in G2. injection G2 as <-. reflexivity.
      * intros ->. apply NEXT. intros e' Ge. apply zget_Some_inv in Ge. lia.
Qed.
End Remap.

(** ** Dropping *)
Record shaped (nodes : list Z) (states : list entry) (nodes' : list Z) (states' : list entry) (phi : Z -> Z) : Prop := mkShaped {
  sh_nodes : nodes' = map phi nodes;
  sh_state : forall x e, In x (usedStates nodes states) -> zget states x = Some e ->
    exists e', zget states' (phi x) = Some e' /\ likeE (zlen states') (fun _ => zlen states') e' e;
  sh_inj : forall x y, In x (usedStates nodes states) -> In y (usedStates nodes states) -> phi x = phi y -> x = y;
  sh_only : forall y e, zget states' y = Some e -> exists x, In x (usedStates nodes states) /\ phi x = y
}.
Lemma like_refls b l : (forall r, In r l -> rState r < b) -> Forall2 (like b) l l.
Proof. induction l as [|r l IH]; intros H; constructor; [apply like_refl, H; left; reflexivity|apply IH; intros x X; apply H; right; exact X]. Qed.
Lemma likeE_refl b b' e : (forall r, In r (allRules e) -> rState r < b /\ forall k, rState r < b' k) -> likeE b b' e e.
Proof.
  intros H. split; [reflexivity|]. split.
  - unfold posLike. assert (X : forall k rs, In (k, rs) (ePos e) -> forall r, In r rs -> rState r < b).
    { intros k rs I r R. apply H. rewrite allRules_eq, in_app_iff. left. apply posRules_In. eauto. }
    clear H. induction (ePos e) as [|(k, rs) m IH]; constructor; [|apply IH; intros k0 rs0 I; apply (X k0); right; exact I]. split; [reflexivity|]. cbn [snd]. apply like_refls, (X k). left. reflexivity.
  - unfold negLike. assert (X : forall k i r, In (k, (i, r)) (eNeg e) -> forall k, rState r < b' k).
    { intros k i r I. apply H. rewrite allRules_eq, in_app_iff. right. apply negRules_In. eauto. }
    clear H. induction (eNeg e) as [|(k, (i, r)) m IH]; constructor; [|apply IH; intros k0 i0 r0 I; apply (X k0 i0); right; exact I]. split; [reflexivity|]. split; [reflexivity|]. cbn [snd]. apply like_refl, (X k i). left. reflexivity.
Qed.

Lemma drop_fair nodes states : (forall e, In e states -> entryOk e) -> cellsFair states ->
  (forall f, In f nodes -> 0 <= f < zlen states) -> (forall e r, In e states -> In r (allRules e) -> rState r < zlen states) ->
  exists nodes' states' phi, dropUnusedStates nodes states = Some (nodes', states') /\ shaped nodes states nodes' states' phi.
Proof.
  intros OK CO NB RB. unfold dropUnusedStates. set (uss := usedStates nodes states) in *.
  assert (UB : forall u, In u uss -> 0 <= u < zlen states).
  { intros u U. apply used_In in U. destruct U as [U|(e & r & E & R & P & ->)]; [apply NB, U|]. specialize (RB e r E R). lia. }
  pose proof (used_sorted nodes states) as US. fold uss in US. pose proof (sorted_nodup _ US) as ND.
  destruct (Z.eqb_spec (zlen uss) (zlen states)) as [EQ|NE].
  - exists nodes, states, (fun x => x). split; [reflexivity|]. split.
    + symmetry. apply map_id.
    + intros x e _ G. exists e. split; [exact G|]. apply likeE_refl. intros r R. specialize (RB e r (zget_In _ _ _ G) R). auto.
    + auto.
    + intros y e G. exists y. split; [|reflexivity]. fold uss.
      assert (PI : incl (map Z.of_nat (seq 0 (length states))) uss).
      { apply NoDup_length_incl; [exact ND|rewrite map_length, seq_length; unfold zlen in EQ; lia|]. intros u U. specialize (UB u U).
        apply in_map_iff. exists (Z.to_nat u). split; [lia|]. apply in_seq. unfold zlen in UB. lia. }
      apply zget_Some_inv in G. apply PI. apply in_map_iff. exists (Z.to_nat y). split; [lia|]. apply in_seq. unfold zlen in G. lia.
  - assert (MK : zmake 0 (zlen states) = Some (repeat 0 (length states))).
    { unfold zmake. pose proof (zlen_nonneg states). destruct (Z.ltb_spec (zlen states) 0); [lia|]. unfold zlen. rewrite Nat2Z.id. reflexivity. }
    rewrite MK. cbn [obind].
    assert (ZR : zlen (repeat 0 (length states)) = zlen states) by (unfold zlen; rewrite repeat_length; reflexivity).
    destruct (moveStates_spec uss states (repeat 0 (length states)) 0 US UB ZR ltac:(lia)) as (st1 & ni & M & L1 & L2 & _ & P2 & P3).
    rewrite M. cbn [obind]. cbn [Z.add] in *.
    set (phi := fun x => match zget ni x with Some j => j | None => 0 end).
    assert (NI : forall x, 0 <= x < zlen ni -> zget ni x = Some (phi x)).
    { intros x Q. unfold phi. destruct (zget_has ni x Q) as (j & -> & _). reflexivity. }
    assert (LU : zlen uss <= zlen states).
    { assert (I : incl uss (map Z.of_nat (seq 0 (length states)))).
      { intros u U. specialize (UB u U). apply in_map_iff. exists (Z.to_nat u). split; [lia|]. apply in_seq. unfold zlen in UB. lia. }
      pose proof (NoDup_incl_length ND I) as X. rewrite map_length, seq_length in X. unfold zlen. lia. }
    pose proof (zlen_nonneg uss) as ZU.
    set (kept := firstn (length uss) st1).
    assert (SL : zslice st1 0 (zlen uss) = Some kept).
    { unfold zslice. destruct (Z.leb_spec 0 (zlen uss)); [|lia]. destruct (Z.leb_spec (zlen uss) (zlen st1)); [|lia]. cbn. unfold kept. do 2 f_equal. unfold zlen. lia. }
    rewrite SL. cbn [obind].
    assert (LK : zlen kept = zlen uss) by (unfold kept, zlen in *; rewrite firstn_length; lia).
    assert (GK : forall c u, zget uss c = Some u -> zget kept c = zget states u).
    { intros c u G. pose proof (zget_Some_inv _ _ _ G) as Q. destruct (P2 c u G) as (A & _). rewrite <- A. unfold zget, kept. destruct (Z.ltb_spec c 0); [lia|].
      apply nth_error_firstn'. unfold zlen in Q. lia. }
    assert (KS : forall e, In e kept -> In e states).
    { intros e E. apply In_zget in E. destruct E as (c & G). pose proof (zget_Some_inv _ _ _ G) as Q. destruct (zget_has uss c) as (u & U & _); [lia|]. rewrite (GK c u U) in G. eapply zget_In, G. }
    assert (NM : mapM (fun f => zget ni f) nodes = Some (map phi nodes)). { apply mapM_map. intros f F. apply NI. specialize (NB f F). lia. }
    rewrite NM. cbn [obind].
    assert (RM : exists cs, remapStates ni (length kept) 0 kept = Some cs /\ progress ni (zlen uss) kept (zlen kept) false [] cs).
    { destruct (Z.eq_dec (zlen uss) 0) as [Z0|NZ].
      - assert (K0 : kept = []) by (destruct kept; [reflexivity|unfold zlen in *; cbn in *; lia]). rewrite K0. cbn [length remapStates]. exists []. split; [reflexivity|].
        split; [reflexivity|]. intros i c e G. apply zget_Some_inv in G. cbn in G. lia.
      - apply remapStates_total.
        + intros i j G. destruct (in_dec Z.eq_dec i uss) as [I|NI'].
          * apply In_zget in I. destruct I as (c & I). destruct (P2 c i I) as (_ & A). rewrite A in G. injection G as <-. apply zget_Some_inv in I. exact I.
          * rewrite (P3 i NI') in G. apply zget_In, repeat_spec in G. lia.
        + lia.
        + intros e E. apply OK, KS, E.
        + intros e e' k k' id r r' E E'. apply CO; apply KS; assumption.
        + lia.
        + unfold zlen. lia.
        + assert (BK : forall i c, zget kept i = Some c -> forall r, In r (allRules c) -> rState r < zlen ni).
          { intros i c G r R. rewrite L2, ZR. apply (RB c r); [apply KS; eapply zget_In, G|exact R]. }
          right. intros e G0. split; [reflexivity|]. intros i c e' Gc Ge. rewrite Gc in Ge. injection Ge as <-.
          assert (QI : 0 <= i) by (apply zget_Some_inv in Gc; lia). destruct (Z.ltb_spec i 0); [lia|]. rewrite andb_false_r. cbn [orb].
          assert (RR : likeE (zlen ni) (fun _ => zlen ni) c c) by (apply likeE_refl; intros r R; specialize (BK i c Gc r R); auto).
          destruct RR as (R1 & R2 & R3). split; [exact R1|]. split; [exact R2|]. unfold negLike in *. eapply F2_impl, R3. intros x y Iy (B1 & B2 & B3).
          split; [exact B1|]. split; [exact B2|]. eapply like_mono, B3. unfold bound. destruct (Z.ltb_spec i 0); [lia|]. destruct (Z.eqb_spec i 0); [|lia].
          subst i. rewrite Gc in G0. injection G0 as <-. assert (SM : smem (fst y) (map fst (eNeg c)) = true) by (apply smem_In, in_map, Iy). rewrite SM. lia.
        + intros Z0. unfold zlen in *. lia. }
    destruct RM as (cs & RM & [PL PK]). rewrite RM. cbn [obind]. do 3 eexists. split; [reflexivity|].
    assert (ZC : zlen cs = zlen uss) by (unfold zlen in *; lia).
    split.
    + reflexivity.
    + intros x e X G. apply In_zget in X. fold uss in X. destruct X as (c & X). destruct (P2 _ _ X) as (_ & A).
      assert (PX : phi x = c) by (unfold phi; rewrite A; reflexivity). rewrite PX. pose proof (GK c x X) as GK'. rewrite G in GK'.
      destruct (zget_same kept cs c e (eq_sym PL) GK') as (e' & G'). exists e'. split; [exact G'|]. pose proof (PK c e' e G' GK') as (B1 & B2 & B3).
      apply zget_Some_inv in GK'. destruct (Z.ltb_spec c (zlen kept)); [|lia]. cbn [orb] in B2. rewrite ZC. split; [exact B1|]. split; [exact B2|].
      unfold negLike in *. eapply F2_impl, B3. intros y z _ (C1 & C2 & C3). split; [exact C1|]. split; [exact C2|]. eapply like_mono, C3. unfold bound. destruct (Z.ltb_spec c (zlen kept)); lia.
    + intros x y X Y E. fold uss in X, Y. apply In_zget in X, Y. destruct X as (c & X). destruct Y as (c' & Y). destruct (P2 _ _ X) as (_ & A). destruct (P2 _ _ Y) as (_ & A').
      unfold phi in E. rewrite A, A' in E. subst c'. congruence.
    + intros y e G. assert (Q : 0 <= y < zlen uss) by (apply zget_Some_inv in G; lia).
      destruct (zget_has uss y Q) as (u & U & I). exists u. split; [exact I|]. destruct (P2 _ _ U) as (_ & A). unfold phi. rewrite A. reflexivity.
Qed.

(** ** What is built is fair *)
Record fair (p : pres) : Prop := mkFair {
  fa_ok : okP p;
  fa_fresh : forall i e k id r, zget (sts p) i = Some e -> In (k, (id, r)) (eNeg e) -> id < prCells p;
  fa_cells : cellsFair (sts p);
  fa_range : forall i r, has p i r -> FinalState <= rState r < zlen (sts p)
}.
Lemma addRule1_fair p i st nt k p' : fair p -> addRule1 p i st nt k = Some p' -> FinalState <= st < zlen (sts p) -> fair p'.
Proof.
  intros [O FR CO RG] H B. destruct (addRule1_spec _ _ _ _ _ _ O H) as (L & F & O' & S). destruct (addRule1_cells _ _ _ _ _ _ H) as (e & e' & G & G' & _ & N).
  assert (ZL : zlen (sts p') = zlen (sts p)) by apply F.
  assert (PC : prCells p <= prCells p') by lia.
  assert (CELL : forall q eq k' id r, zget (sts p') q = Some eq -> In (k', (id, r)) (eNeg eq) ->
     (exists e0, zget (sts p) q = Some e0 /\ In (k', (id, r)) (eNeg e0)) \/ q = i /\ id = prCells p /\ k' = k /\ k < 0 /\ r = mkRule k st nt /\ prCells p' = prCells p + 1).
  { intros q eq k' id r Gq X. destruct (Z.eq_dec q i) as [->|NE].
    - rewrite G' in Gq. injection Gq as <-. destruct N as [(_ & E & _)|(K & E & C)].
      + rewrite E in X. left. eauto.
      + rewrite E in X. apply mput_In in X; [|exact (eo_neg e (O i e G))]. destruct X as [[= -> -> ->]|(X & _)]; [right; auto 10|left; eauto].
    - destruct F as (_ & F). rewrite (F q NE) in Gq. left. eauto. }
  split.
  - exact O'.
  - intros q eq k' id r Gq X. destruct (CELL _ _ _ _ _ Gq X) as [(e0 & G0 & X0)|(_ & -> & _ & _ & _ & C)]; [|lia]. specialize (FR _ _ _ _ _ G0 X0). lia.
  - intros ea eb k1 k2 id r1 r2 Ia Ib Xa Xb. apply In_zget in Ia, Ib. destruct Ia as (a & Ga). destruct Ib as (b & Gb). destruct (CELL _ _ _ _ _ Ga Xa) as [(ea0 & Ga0 & Xa0)|(A1 & A2 & A3 & A4 & A5 & A6)].
    + destruct (CELL _ _ _ _ _ Gb Xb) as [(eb0 & Gb0 & Xb0)|(B1 & B2 & B3 & B4 & B5 & B6)].
      * exact (CO _ _ _ _ _ _ _ (zget_In _ _ _ Ga0) (zget_In _ _ _ Gb0) Xa0 Xb0).
      * specialize (FR _ _ _ _ _ Ga0 Xa0). lia.
    + destruct (CELL _ _ _ _ _ Gb Xb) as [(eb0 & Gb0 & Xb0)|(B1 & B2 & B3 & B4 & B5 & B6)].
      * specialize (FR _ _ _ _ _ Gb0 Xb0). lia.
      * split; congruence.
  - intros q r X. rewrite ZL. destruct (Z.eq_dec q i) as [->|NE]; [|apply (RG q), (has_onlyAt _ _ _ _ _ F NE), X].
    apply S in X. destruct X as [->|(X & _)]; [exact B|apply (RG i r X)].
Qed.
Lemma addRule_fair i st nt ks : forall p p', fair p -> addRule p i st nt ks = Some p' -> FinalState <= st < zlen (sts p) -> fair p'.
Proof.
  induction ks as [|k ks IH]; intros p p' S H B; cbn [addRule] in H.
  - injection H as <-. auto.
  - ob H. rename x into p1. pose proof (addRule1_fair _ _ _ _ _ _ S H0 B) as S1.
    assert (ZL : zlen (sts p1) = zlen (sts p)). { assert (A : addRule p i st nt [k] = Some p1) by (cbn [addRule]; rewrite H0; reflexivity). apply addRule_keeps in A. apply A. }
    apply (IH p1 p' S1 H). lia.
Qed.
Lemma copyRules_fair p i j p' : fair p -> copyRules p i j = Some p' -> fair p'.
Proof.
  intros [O FR CO RG] H. destruct (copyRules_spec _ _ _ _ O H) as (L & L' & F & O' & S).
  assert (ZL : zlen (sts p') = zlen (sts p)) by apply F.
  pose proof H as H'. unfold copyRules in H'. ob H'. rename x into f. rename H'0 into Gf. ob H'. rename x into e. rename H'0 into Ge.
  apply setState_inv in H'. destruct H' as (_ & _ & G' & PC). cbn [eNeg] in G'.
  destruct (putAll (eNeg f) (eNeg e) (eo_neg _ (O _ _ Ge)) (eo_neg _ (O _ _ Gf))) as (_ & PA).
  assert (CELL : forall q eq k' id r, zget (sts p') q = Some eq -> In (k', (id, r)) (eNeg eq) -> exists q0 e0, zget (sts p) q0 = Some e0 /\ In (k', (id, r)) (eNeg e0)).
  { intros q eq k' id r Gq X. destruct (Z.eq_dec q i) as [->|N].
    - rewrite G' in Gq. injection Gq as <-. cbn [eNeg] in X. apply PA in X. destruct X as [X|(X & _)]; eauto.
    - destruct F as (_ & F). rewrite (F q N) in Gq. eauto. }
  split.
  - exact O'.
  - intros q eq k' id r Gq X. rewrite PC. destruct (CELL _ _ _ _ _ Gq X) as (q0 & e0 & G0 & X0). exact (FR _ _ _ _ _ G0 X0).
  - intros ea eb k1 k2 id r1 r2 Ia Ib Xa Xb. apply In_zget in Ia, Ib. destruct Ia as (a & Ga). destruct Ib as (b & Gb).
    destruct (CELL _ _ _ _ _ Ga Xa) as (qa & ea0 & Ga0 & Xa0). destruct (CELL _ _ _ _ _ Gb Xb) as (qb & eb0 & Gb0 & Xb0).
    exact (CO _ _ _ _ _ _ _ (zget_In _ _ _ Ga0) (zget_In _ _ _ Gb0) Xa0 Xb0).
  - intros q r X. rewrite ZL. destruct (Z.eq_dec q i) as [->|N]; [|apply (RG q), (has_onlyAt _ _ _ _ _ F N), X].
    apply S in X. destruct X as [X|(X & _)]; eapply RG; eassumption.
Qed.
Lemma grown_fair p p1 : fair p -> zlen (sts p) <= zlen (sts p1) -> prCells p <= prCells p1 -> (forall q, q < zlen (sts p) -> zget (sts p1) q = zget (sts p) q) ->
  (forall q, zlen (sts p) <= q < zlen (sts p1) -> zget (sts p1) q = Some (mkEntry 0 [] [])) -> fair p1.
Proof.
  intros [O FR CO RG] Z C OLD NEW.
  assert (ENT : forall q e, zget (sts p1) q = Some e -> zget (sts p) q = Some e \/ zlen (sts p) <= q /\ e = mkEntry 0 [] []).
  { intros q e G. pose proof (zget_Some_inv _ _ _ G) as Q. destruct (Z.lt_ge_cases q (zlen (sts p))) as [LT|GE].
    - rewrite OLD in G by exact LT. auto.
    - rewrite NEW in G by lia. injection G as <-. auto. }
  split.
  - intros q e G. destruct (ENT q e G) as [X|(_ & ->)]; [eapply O, X|apply empty_entryOk].
  - intros q e k id r G X. destruct (ENT q e G) as [Y|(_ & ->)]; [|destruct X]. specialize (FR _ _ _ _ _ Y X). lia.
  - intros ea eb k1 k2 id r1 r2 Ia Ib Xa Xb. apply In_zget in Ia, Ib. destruct Ia as (a & Ga). destruct Ib as (b & Gb).
    destruct (ENT _ _ Ga) as [Ya|(_ & ->)]; [|destruct Xa]. destruct (ENT _ _ Gb) as [Yb|(_ & ->)]; [|destruct Xb].
    exact (CO _ _ _ _ _ _ _ (zget_In _ _ _ Ya) (zget_In _ _ _ Yb) Xa Xb).
  - intros q r (e & G & X). destruct (ENT q e G) as [Y|(_ & ->)]; [|destruct X]. assert (H : has p q r) by (exists e; auto). specialize (RG q r H). lia.
Qed.
Lemma copyBack_fair l : forall states p p', copyBack l states p = Some p' -> fair p -> fair p'.
Proof. intros states p p' H. apply (rel_copyBack (fun p p' => fair p -> fair p')) with (l := l) (states := states); auto. intros; eapply copyRules_fair; eassumption. Qed.

Section Build.
Variable firsts : list (list Z).
Lemma build_fair c : written c -> forall s n p p', buildStates firsts c s n p = Some p' -> fair p -> live p s -> FinalState <= n < zlen (sts p) -> fair p'.
Proof.
  induction c as [t| |i|opt rep l IH|l IH] using chunk_nest; intros W s n p p' H S LV B.
  - exact (addRule_fair _ _ _ _ _ _ S H B).
  - refine (addRule_fair _ _ _ _ _ _ S H _). unfold FinalState in *. pose proof (zlen_nonneg (sts p)). lia.
  - exact (addRule_fair _ _ _ _ _ _ S H B).
  - inversion W as [| | | |? ? ? NE RO WL]; subst.
    destruct (group_parts _ _ _ _ _ _ _ _ LV H) as (first & rest & p1 & p2 & p3 & p4 & ls & G). destruct G as [gp_len0 gp_first0 gp_rest0 gp_nodup0 gp_zlen0 gp_old0 gp_new0 gp_seq0 gp_last0 gp_copy0 gp_extra0 gp_cells0].
    rename gp_last0 into GL. set (tail := if rep then s else n) in *.
    assert (TB : FinalState <= tail < zlen (sts p)). { unfold tail. destruct rep; [unfold live, FinalState in *; lia|exact B]. }
    assert (LVS : forall x, In x (first :: rest) -> live p1 x).
    { intros x X. unfold live in *. destruct X as [<-|X]; [|specialize (gp_rest0 x X); pose proof (zlen_nonneg (sts p)); lia].
      destruct gp_first0 as [(-> & _)|(Q & _)]; pose proof (zlen_nonneg (sts p)); lia. }
    pose proof (grown_fair p p1 S gp_zlen0 ltac:(lia) gp_old0 gp_new0) as S1.
    assert (SEQ : forall l states p p', (forall c, In c l -> written c) -> (forall c, In c l -> forall s n p p', buildStates firsts c s n p = Some p' -> fair p -> live p s -> FinalState <= n < zlen (sts p) -> fair p') ->
      buildSeq firsts l states tail p = Some p' -> fair p -> (forall x, In x states -> live p x) -> FinalState <= tail < zlen (sts p) -> fair p' /\ zlen (sts p) <= zlen (sts p')).
    { clearbody tail. clear. intros l. induction l as [|c l IL]; intros states p p' WL M H S LV TB.
      - cbn in H. injection H as <-. split; [exact S|lia].
      - destruct states as [|s ss]; [discriminate H|]. cbn [buildSeq] in H. ob H. rename x into pm.
        pose proof (WL c (or_introl eq_refl)) as Wc. pose proof (build_zlen _ _ _ _ _ _ Wc H0) as Z1.
        assert (HB : FinalState <= hd tail ss < zlen (sts p)).
        { destruct ss as [|x ss]; [exact TB|]. cbn [hd]. specialize (LV x (or_intror (or_introl eq_refl))). unfold live, FinalState in *. lia. }
        pose proof (M c (or_introl eq_refl) s (hd tail ss) p pm H0 S (LV s (or_introl eq_refl)) HB) as S1.
        destruct (IL ss pm p' (fun c' C => WL c' (or_intror C)) (fun c' C => M c' (or_intror C)) H S1) as (S2 & Z2).
        + intros x X. specialize (LV x (or_intror X)). unfold live in *. lia.
        + lia.
        + split; [exact S2|lia]. }
    destruct (SEQ l _ _ _ WL (fun c C => IH c C (WL c C)) gp_seq0 S1 LVS ltac:(lia)) as (S2 & Z2).
    destruct GL as (lc & l0 & st0 & EL & ES & LEN & BP).
    assert (S3 : fair p3) by (destruct (isOptional lc); [exact (addRule_fair _ _ _ _ _ _ S2 BP ltac:(lia))|injection BP as <-; exact S2]).
    pose proof (copyBack_fair _ _ _ _ gp_copy0 S3) as S4.
    destruct (rep && (1 <? zlen l)); [eapply copyRules_fair; eassumption|injection gp_extra0 as <-; exact S4].
  - inversion W as [| | |? NE WL|]; subst. rewrite buildStates_var in H. clear W NE. revert p H S LV B.
    induction l as [|c l IL]; intros p H S LV B; cbn [buildVar] in H.
    + injection H as <-. auto.
    + ob H. rename x into pm. pose proof (WL c (or_introl eq_refl)) as Wc. pose proof (build_zlen _ _ _ _ _ _ Wc H0) as Z1.
      pose proof (IH c (or_introl eq_refl) Wc s n p pm H0 S LV B) as S1.
      apply (IL (fun c' C => IH c' (or_intror C)) (fun c' C => WL c' (or_intror C)) pm H S1); [unfold live in *; lia|lia].
Qed.
Lemma nodes_fair defs : (forall d, In d defs -> written d) -> forall p fs p', buildNodes firsts defs p = Some (fs, p') -> fair p ->
  fair p' /\ zlen (sts p) <= zlen (sts p') /\ (forall f, In f fs -> 0 <= f < zlen (sts p')).
Proof.
  induction defs as [|d ds IH]; intros W p fs p' H S; cbn [buildNodes] in H.
  - injection H as <- <-. split; [exact S|]. split; [lia|]. intros f [].
  - destruct (addState p) as (first, p1) eqn:A. ob H. rename x into p2. ob H. destruct x as (fs', p3). injection H as <- <-.
    apply addState_spec in A. destruct A as (-> & A2 & A3 & A4 & A5). pose proof (zlen_nonneg (sts p)) as ZN.
    assert (S1 : fair p1). { apply (grown_fair p p1 S ltac:(lia) ltac:(lia)). { intros q Q. apply A3. lia. } { intros q Q. replace q with (zlen (sts p)) by lia. exact A4. } }
    pose proof (W d (or_introl eq_refl)) as Wd.
    assert (S2 : fair p2) by (apply (build_fair d Wd _ _ _ _ H0 S1); [unfold live; lia|unfold FinalState; lia]).
    destruct (IH (fun d' D => W d' (or_intror D)) _ _ _ H1 S2) as (S3 & Z3 & R3).
    pose proof (build_zlen _ _ _ _ _ _ Wd H0). split; [exact S3|]. split; [lia|]. intros f [<-|F]; [lia|apply R3, F].
Qed.
End Build.
Lemma empty_fair : fair (mkPres [] 0).
Proof.
  split.
  - intros q e G. apply zget_Some_inv in G. cbn in G. lia.
  - intros q e k id r G. apply zget_Some_inv in G. cbn in G. lia.
  - intros e e' k k' id r r' [].
  - intros q r (e & G & _). apply zget_Some_inv in G. cbn in G. lia.
Qed.
