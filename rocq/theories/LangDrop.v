(** Dropping unused states. *)
From Coq Require Import ZArith List Bool Lia Permutation Sorted.
From Verif Require Import Base BaseProofs Grammar LangBuild LangSpec LangProofs LangFrame LangTotal LangTables.
Import ListNotations.
Open Scope Z_scope.

(** ** Sets *)
Lemma sadd_In x y l : In y (sadd x l) <-> y = x \/ In y l.
Proof.
  induction l as [|z l IH]; cbn [sadd]; [cbn; intuition|]. destruct (x <? z); [cbn; intuition|]. destruct (Z.eqb_spec x z) as [->|NE].
  - cbn. intuition.
  - cbn [In]. rewrite IH. intuition.
Qed.
Lemma sadd_sorted x l : StronglySorted Z.lt l -> StronglySorted Z.lt (sadd x l).
Proof.
  induction l as [|z l IH]; intros S; cbn [sadd]; [constructor; constructor|]. inversion S as [|? ? S1 S2]; subst.
  destruct (Z.ltb_spec x z).
  - constructor; [exact S|]. constructor; [assumption|]. eapply Forall_impl; [|exact S2]. cbn. intros; lia.
  - destruct (Z.eqb_spec x z); [exact S|]. constructor; [apply IH, S1|]. apply Forall_forall. intros y Y. apply sadd_In in Y. destruct Y as [->|Y]; [lia|].
    rewrite Forall_forall in S2. apply S2, Y.
Qed.
Lemma used_In nodes states x : In x (usedStates nodes states) <-> In x nodes \/ exists e r, In e states /\ In r (allRules e) /\ 0 <= rState r /\ x = rState r.
Proof.
  unfold usedStates.
  assert (A : forall l s, In x (fold_left (fun s f => sadd f s) l s) <-> In x l \/ In x s).
  { induction l as [|f l IH]; intros s; cbn [fold_left]; [cbn; intuition|]. rewrite IH, sadd_In. cbn. intuition. }
  assert (B : forall l s, In x (fold_left (fun s r => if 0 <=? rState r then sadd (rState r) s else s) l s) <-> (exists r, In r l /\ 0 <= rState r /\ x = rState r) \/ In x s).
  { induction l as [|f l IH]; intros s; cbn [fold_left]; [split; [auto|intros [(r & [] & _)|X]; auto]|]. rewrite IH. destruct (Z.leb_spec 0 (rState f)).
    - rewrite sadd_In. split.
      + intros [(r & R & X)|[->|X]]; [left; exists r; cbn; auto|left; exists f; cbn; auto|auto].
      + intros [(r & [<-|R] & X1 & X2)|X]; [auto|left; eauto|auto].
    - split.
      + intros [(r & R & X)|X]; [left; exists r; cbn; auto|auto].
      + intros [(r & [<-|R] & X1 & X2)|X]; [lia|left; eauto|auto]. }
  assert (C : forall l s, In x (fold_left (fun s e => fold_left (fun s r => if 0 <=? rState r then sadd (rState r) s else s) (allRules e) s) l s) <->
     (exists e r, In e l /\ In r (allRules e) /\ 0 <= rState r /\ x = rState r) \/ In x s).
  { induction l as [|f l IH]; intros s; cbn [fold_left]; [split; [auto|intros [(e & r & [] & _)|X]; auto]|]. rewrite IH, B. split.
    - intros [(e & r & E & X)|[(r & X)|X]]; [left; exists e, r; cbn; tauto|left; exists f, r; cbn; tauto|auto].
    - intros [(e & r & [<-|E] & X)|X]; [right; left; eauto|left; eauto|auto]. }
  rewrite C, A. cbn. tauto.
Qed.
Lemma used_sorted nodes states : StronglySorted Z.lt (usedStates nodes states).
Proof.
  unfold usedStates.
  assert (A : forall l s, StronglySorted Z.lt s -> StronglySorted Z.lt (fold_left (fun s f => sadd f s) l s)).
  { induction l as [|f l IH]; intros s S; cbn [fold_left]; [exact S|]. apply IH, sadd_sorted, S. }
  assert (B : forall l s, StronglySorted Z.lt s -> StronglySorted Z.lt (fold_left (fun s r => if 0 <=? rState r then sadd (rState r) s else s) l s)).
  { induction l as [|f l IH]; intros s S; cbn [fold_left]; [exact S|]. apply IH. destruct (0 <=? rState f); [apply sadd_sorted, S|exact S]. }
  assert (X : StronglySorted Z.lt (fold_left (fun s f => sadd f s) nodes [])) by (apply A; constructor).
  revert X. generalize (fold_left (fun s f => sadd f s) nodes []). induction states as [|e states IH]; intros s S; cbn [fold_left]; [exact S|]. apply IH, B, S.
Qed.

(** ** Moving *)
Lemma moveStates_spec : forall uss states ni cur, StronglySorted Z.lt uss -> (forall u, In u uss -> cur <= u < zlen states) -> zlen ni = zlen states -> 0 <= cur ->
  exists states' ni', moveStates uss states ni cur = Some (states', ni', cur + zlen uss) /\ zlen states' = zlen states /\ zlen ni' = zlen ni /\
    (forall q, q < cur -> zget states' q = zget states q) /\
    (forall c u, zget uss c = Some u -> zget states' (cur + c) = zget states u /\ zget ni' u = Some (cur + c)) /\
    (forall q, ~ In q uss -> zget ni' q = zget ni q).
Proof.
  induction uss as [|i uss IH]; intros states ni cur S B L C; cbn [moveStates].
  - exists states, ni. replace (cur + zlen []) with cur by (cbn; lia). split; [reflexivity|]. split; [reflexivity|]. split; [reflexivity|]. split; [auto|]. split; [|auto].
    intros c u G. apply zget_Some_inv in G. cbn in G. lia.
  - inversion S as [|? ? S1 S2]; subst. rewrite Forall_forall in S2. pose proof (B i (or_introl eq_refl)) as Bi.
    destruct (zget_has states i) as (e & G & _); [lia|]. rewrite G. cbn [obind].
    rewrite (zset_Some states cur e) by lia. cbn [obind]. rewrite (zset_Some ni i cur) by lia. cbn [obind].
    set (states1 := upd states (Z.to_nat cur) e). set (ni1 := upd ni (Z.to_nat i) cur).
    assert (Z1 : zlen states1 = zlen states) by (unfold zlen, states1; rewrite upd_length; reflexivity).
    assert (Z2 : zlen ni1 = zlen ni) by (unfold zlen, ni1; rewrite upd_length; reflexivity).
    destruct (IH states1 ni1 (cur + 1)) as (states' & ni' & M & L1 & L2 & P1 & P2 & P3).
    + exact S1.
    + intros u U. specialize (S2 u U). specialize (B u (or_intror U)). lia.
    + lia.
    + lia.
    + exists states', ni'. split; [rewrite M; do 2 f_equal; unfold zlen; cbn [length]; lia|]. split; [lia|]. split; [lia|].
      assert (GS : forall q, q <> cur -> zget states1 q = zget states q).
      { intros q N. unfold states1. rewrite zget_upd by lia. destruct (Z.eqb_spec q cur); [contradiction|reflexivity]. }
      split; [|split].
      * intros q Q. rewrite P1 by lia. apply GS. lia.
      * intros c u U. apply (zget_app_inv [i] uss) in U. destruct U as [U|(Q & U)].
        -- pose proof (zget_Some_inv _ _ _ U) as Q. cbn in Q. assert (c = 0) by lia. subst c. cbn in U. injection U as <-. rewrite Z.add_0_r. split.
           ++ rewrite P1 by lia. unfold states1. rewrite zget_upd by lia. rewrite Z.eqb_refl. symmetry. exact G.
           ++ rewrite P3 by (intros X; specialize (S2 i X); lia). unfold ni1. rewrite zget_upd by lia. rewrite Z.eqb_refl. reflexivity.
        -- assert (IU : In u uss). { unfold zget in U. destruct (_ <? 0); [discriminate|]. eapply nth_error_In, U. }
           destruct (P2 _ _ U) as (A1 & A2). replace (cur + 1 + (c - zlen [i])) with (cur + c) in * by (cbn; lia). split; [|exact A2]. rewrite A1. apply GS.
           specialize (S2 u IU). lia.
      * intros q N. rewrite P3 by (intros X; apply N; right; exact X). unfold ni1. rewrite zget_upd by lia.
        destruct (Z.eqb_spec q i) as [->|_]; [contradiction N; left; reflexivity|reflexivity].
Qed.

(** ** Renaming *)
Section Rename.
Variable phi : Z -> Z.
Definition renR (r : rule) : rule := if 0 <=? rState r then mkRule (rToken r) (phi (rState r)) (rNode r) else r.
Definition renPos (m : list (Z * list rule)) := map (fun '(k, rs) => (k, map renR rs)) m.
Definition renNeg (s : list Z) (m : list (Z * (Z * rule))) := map (fun '(k, (id, r)) => (k, (id : Z, if smem id s then renR r else r))) m.
Definition renE (e : entry) : entry := mkEntry (eTypes e) (renPos (ePos e)) (map (fun '(k, (id, r)) => (k, (id, renR r))) (eNeg e)).
(** partly renamed *)
Definition half (s : list Z) (e : entry) : entry := mkEntry (eTypes e) (ePos e) (renNeg s (eNeg e)).
Definition full (s : list Z) (e : entry) : entry := mkEntry (eTypes e) (renPos (ePos e)) (renNeg s (eNeg e)).

(** a cell has one key and one rule; a cell with a rule to be renamed is in one state only *)
Definition cellsOk (es : list entry) : Prop := forall i j ei ej k k' id r r', zget es i = Some ei -> zget es j = Some ej ->
  In (k, (id, r)) (eNeg ei) -> In (k', (id, r')) (eNeg ej) -> k = k' /\ r = r' /\ (0 <= rState r -> i = j).

Variable ni : list Z.
Hypothesis NI : forall x, 0 <= x < zlen ni -> zget ni x = Some (phi x).
Lemma remap_ren r : rState r < zlen ni -> remapRule ni r = Some (renR r).
Proof. intros B. unfold remapRule, renR. destruct (Z.leb_spec 0 (rState r)); [|reflexivity]. rewrite NI by lia. reflexivity. Qed.
Lemma mapM_map {A B} (f : A -> option B) g l : (forall x, In x l -> f x = Some (g x)) -> mapM f l = Some (map g l).
Proof.
  induction l as [|x l IH]; intros H; [reflexivity|]. cbn [mapM map]. rewrite (H x (or_introl eq_refl)). cbn [obind]. rewrite IH by (intros y Y; apply H; right; exact Y). reflexivity.
Qed.
Lemma smem_cons id x s : smem id (x :: s) = (id =? x) || smem id s.
Proof. reflexivity. Qed.
Lemma smem_In id s : smem id s = true <-> In id s.
Proof. unfold smem. rewrite existsb_exists. split; [intros (x & X & Y); apply Z.eqb_eq in Y; subst; exact X|intros X; exists id; split; [exact X|apply Z.eqb_refl]]. Qed.

(** the cell [id] holds [r] in all the states *)
Definition holds (es : list entry) (id : Z) (r : rule) : Prop := forall e k r', In e es -> In (k, (id, r')) (eNeg e) -> r' = r.
Definition setIn (id : Z) (r : rule) (e : entry) : entry :=
  mkEntry (eTypes e) (ePos e) (map (fun '(k, (i, r')) => (k, (i, if i =? id then r else r'))) (eNeg e)).
Lemma set_neg id r s m : (forall k r', In (k, (id, r')) m -> r' = r) ->
  map (fun '(k, (i, r')) => (k, (i, if i =? id then renR r else r'))) (renNeg s m) = renNeg (id :: s) m.
Proof.
  intros H. unfold renNeg. rewrite map_map. apply map_ext_in. intros (k, (i, r')) X. rewrite smem_cons. destruct (Z.eqb_spec i id) as [->|NE]; [|reflexivity].
  cbn [orb]. rewrite (H k r' X). reflexivity.
Qed.
Lemma setCell_app id r a b : setCell id r (a ++ b) = setCell id r a ++ setCell id r b.
Proof. unfold setCell. apply map_app. Qed.
Lemma setCell_full id r s l : holds l id r -> setCell id (renR r) (map (full s) l) = map (full (id :: s)) l.
Proof.
  intros H. unfold setCell. rewrite map_map. apply map_ext_in. intros e E. unfold full. cbn [eTypes ePos eNeg]. f_equal. apply set_neg. intros k r'. apply H, E.
Qed.
Lemma setCell_half id r s l : holds l id r -> setCell id (renR r) (map (half s) l) = map (half (id :: s)) l.
Proof.
  intros H. unfold setCell. rewrite map_map. apply map_ext_in. intros e E. unfold half. cbn [eTypes ePos eNeg]. f_equal. apply set_neg. intros k r'. apply H, E.
Qed.
Lemma mget_renNeg k s m : mget k (renNeg s m) = match mget k m with Some (id, r) => Some (id, if smem id s then renR r else r) | None => None end.
Proof. induction m as [|(k', (id, r)) m IH]; [reflexivity|]. cbn [renNeg map mget]. destruct (k =? k'); [reflexivity|exact IH]. Qed.
Lemma renR_idem r s id : (0 <= rState r -> smem id s = false) -> remapRule ni r = Some (renR r) -> remapRule ni (if smem id s then renR r else r) = Some (renR r).
Proof.
  intros H R. destruct (smem id s); [|exact R]. unfold renR in *. destruct (Z.leb_spec 0 (rState r)); [specialize (H ltac:(assumption)); discriminate|]. exact R.
Qed.

Lemma remapNeg_spec done e todo : NoDup (map fst (eNeg e)) -> (forall e' k id r, In e' (done ++ e :: todo) -> In (k, (id, r)) (eNeg e') -> rState r < zlen ni) ->
  (forall k id r, In (k, (id, r)) (eNeg e) -> holds (done ++ e :: todo) id r) ->
  forall ks s, NoDup ks -> (forall k, In k ks -> In k (map fst (eNeg e))) ->
  (forall k id r, In k ks -> In (k, (id, r)) (eNeg e) -> 0 <= rState r -> ~ In id s) ->
  (forall k id r k' r', In (k, (id, r)) (eNeg e) -> In (k', (id, r')) (eNeg e) -> k = k') ->
  exists s', remapNeg ni ks (zlen done) (map (full s) (done ++ [e]) ++ map (half s) todo) = Some (map (full s') (done ++ [e]) ++ map (half s') todo) /\
    (forall id, In id s' <-> In id s \/ exists k r, In k ks /\ In (k, (id, r)) (eNeg e)).
Proof.
  intros ND B HO. induction ks as [|k ks IH]; intros s NK K FR FK; cbn [remapNeg].
  - exists s. split; [reflexivity|]. intros id. split; [auto|intros [X|(k & r & [] & _)]; exact X].
  - inversion NK as [|? ? N1 N2]; subst.
    assert (ZD : zlen (map (full s) done) = zlen done) by (unfold zlen; rewrite map_length; reflexivity).
    assert (G : zget (map (full s) (done ++ [e]) ++ map (half s) todo) (zlen done) = Some (full s e)).
    { rewrite map_app, <- app_assoc. rewrite zget_app_r by lia. rewrite ZD, Z.sub_diag. reflexivity. }
    rewrite G. cbn [obind]. unfold full at 1. cbn [eNeg].
    pose proof (K k (or_introl eq_refl)) as KI. apply in_map_iff in KI. destruct KI as ((k0, (id, r)) & E & KI). cbn [fst] in E. subst k0.
    rewrite mget_renNeg. pose proof (proj2 (mget_In _ _ _ ND) KI) as MG. rewrite MG. cbn [obind].
    assert (IE : In e (done ++ e :: todo)) by (apply in_app_iff; right; left; reflexivity).
    rewrite (renR_idem r s id); [|intros P; destruct (smem id s) eqn:SM; [|reflexivity]; apply smem_In in SM; contradiction (FR k id r (or_introl eq_refl) KI P SM)|apply remap_ren, (B e k id r IE KI)].
    cbn [obind]. rewrite setCell_app.
    pose proof (HO k id r KI) as H0.
    rewrite setCell_full by (intros e' k' r' E'; apply H0; apply in_app_iff in E'; apply in_app_iff; destruct E' as [E'|[<-|[]]]; [left; exact E'|right; left; reflexivity]).
    rewrite setCell_half by (intros e' k' r' E'; apply H0; apply in_app_iff; right; right; exact E').
    destruct (IH (id :: s)) as (s' & H & SS).
    + exact N2.
    + intros k' K'. apply K. right. exact K'.
    + intros k' id' r' K' I' P C. destruct C as [<-|C]; [|exact (FR k' id' r' (or_intror K') I' P C)].
      assert (X : k = k') by (eapply FK; eassumption). subst k'. contradiction.
    + exact FK.
    + exists s'. split; [exact H|]. intros id'. rewrite SS. cbn [In]. split.
      * intros [[<-|X]|(k' & r' & X & Y)]; [right; exists k, r; auto|auto|right; exists k', r'; auto].
      * intros [X|(k' & r' & [<-|X] & Y)]; [auto| |right; eauto]. left. left.
        pose proof (proj2 (mget_In _ _ _ ND) Y) as MG'. rewrite MG in MG'. injection MG' as <- _. reflexivity.
Qed.

Lemma remapStates_spec : forall todo done s, cellsOk (done ++ todo) -> (forall e, In e todo -> entryOk e) ->
  (forall e r, In e (done ++ todo) -> In r (allRules e) -> rState r < zlen ni) ->
  (forall id, In id s -> exists i ei k r, zget (done ++ todo) i = Some ei /\ i < zlen done /\ In (k, (id, r)) (eNeg ei)) ->
  exists s', remapStates ni (length todo) (zlen done) (map (full s) done ++ map (half s) todo) = Some (map (full s') (done ++ todo)) /\
    (forall id, In id s' <-> In id s \/ exists e k r, In e todo /\ In (k, (id, r)) (eNeg e)).
Proof.
  induction todo as [|e todo IH]; intros done s CO OK B SD; cbn [length remapStates].
  - exists s. cbn [map]. rewrite !app_nil_r. split; [reflexivity|]. intros id. split; [auto|intros [X|(e & k & r & [] & _)]; exact X].
  - assert (ZD : zlen (map (full s) done) = zlen done) by (unfold zlen; rewrite map_length; reflexivity).
    assert (G : zget (map (full s) done ++ map (half s) (e :: todo)) (zlen done) = Some (half s e)).
    { rewrite zget_app_r by lia. rewrite ZD, Z.sub_diag. reflexivity. }
    rewrite G. cbn [obind]. unfold half at 1. cbn [ePos].
    pose proof (OK e (or_introl eq_refl)) as OKe. pose proof (eo_neg e OKe) as ND.
    assert (IE : In e (done ++ e :: todo)) by (apply in_app_iff; right; left; reflexivity).
    assert (PM : mapM (fun '(k, rs) => do rs' <- mapM (remapRule ni) rs; Some (k, rs')) (ePos e) = Some (renPos (ePos e))).
    { apply mapM_map. intros (k, rs) X. rewrite (mapM_map _ renR); [reflexivity|]. intros r R. apply remap_ren, (B e r IE). rewrite allRules_eq, in_app_iff. left. apply posRules_In. eauto. }
    rewrite PM. cbn [obind].
    assert (ZT : zlen (map (full s) done ++ map (half s) (e :: todo)) = zlen done + 1 + zlen todo).
    { unfold zlen. rewrite app_length, !map_length. cbn [length]. lia. }
    pose proof (zlen_nonneg done). pose proof (zlen_nonneg todo).
    rewrite zset_Some by lia. cbn [obind].
    assert (UP : upd (map (full s) done ++ map (half s) (e :: todo)) (Z.to_nat (zlen done)) (mkEntry (eTypes (half s e)) (renPos (ePos e)) (eNeg (half s e))) =
      map (full s) (done ++ [e]) ++ map (half s) todo).
    { rewrite map_app, <- app_assoc. cbn [map app]. unfold zlen. rewrite Nat2Z.id.
      replace (length done) with (length (map (full s) done)) by apply map_length. generalize (map (full s) done) as l. induction l as [|x l IL]; [reflexivity|]. cbn. f_equal. exact IL. }
    rewrite UP.
    assert (KM : map fst (eNeg (half s e)) = map fst (eNeg e)).
    { unfold half, renNeg. cbn [eNeg]. rewrite map_map. apply map_ext. intros (k, (id, r)). reflexivity. }
    rewrite KM.
    assert (GE : zget (done ++ e :: todo) (zlen done) = Some e) by (rewrite zget_app_r by lia; rewrite Z.sub_diag; reflexivity).
    destruct (remapNeg_spec done e todo ND) with (ks := map fst (eNeg e)) (s := s) as (s1 & H1 & S1).
    + intros e' k id r E' X. apply (B e' r E'). rewrite allRules_eq, in_app_iff. right. apply negRules_In. eauto.
    + intros k id r X e' k' r' E' X'. apply In_nth_error in E'. destruct E' as (n & E').
      assert (GN : zget (done ++ e :: todo) (Z.of_nat n) = Some e') by (unfold zget; destruct (Z.ltb_spec (Z.of_nat n) 0); [lia|]; rewrite Nat2Z.id; exact E').
      destruct (CO _ _ _ _ _ _ _ _ _ GN GE X' X) as (_ & A & _). exact A.
    + exact ND.
    + auto.
    + intros k id r _ X P C. destruct (SD id C) as (i & ei & k' & r' & Gi & Li & Xi). destruct (CO _ _ _ _ _ _ _ _ _ GE Gi X Xi) as (_ & _ & A). specialize (A P). lia.
    + intros k id r k' r' X Y. destruct (CO _ _ _ _ _ _ _ _ _ GE GE X Y) as (A & _). exact A.
    + rewrite H1. cbn [obind]. replace (zlen done + 1) with (zlen (done ++ [e])) by (unfold zlen; rewrite app_length; cbn [length]; lia).
      assert (APP : (done ++ [e]) ++ todo = done ++ e :: todo) by (rewrite <- app_assoc; reflexivity).
      destruct (IH (done ++ [e]) s1) as (s2 & H2 & S2).
      * rewrite APP. exact CO.
      * intros e' E'. apply OK. right. exact E'.
      * rewrite APP. exact B.
      * intros id X. rewrite APP. apply S1 in X. destruct X as [X|(k & r & X & Y)].
        -- destruct (SD id X) as (i & ei & k' & r' & Gi & Li & Xi). exists i, ei, k', r'. split; [exact Gi|]. split; [|exact Xi]. rewrite zlen_app. cbn. lia.
        -- exists (zlen done), e, k, r. split; [exact GE|]. split; [rewrite zlen_app; cbn; lia|exact Y].
      * exists s2. rewrite H2, APP. split; [reflexivity|]. intros id. rewrite S2, S1. split.
        -- intros [[X|(k & r & X & Y)]|(e' & k & r & X & Y)]; [auto|right; exists e, k, r; cbn; auto|right; exists e', k, r; cbn; auto].
        -- intros [X|(e' & k & r & [<-|X] & Y)]; [auto| |right; eauto]. left. right. exists k, r. split; [apply in_map_iff; exists (k, (id, r)); auto|exact Y].
Qed.
Lemma remapAll es : cellsOk es -> (forall e, In e es -> entryOk e) -> (forall e r, In e es -> In r (allRules e) -> rState r < zlen ni) ->
  remapStates ni (length es) 0 es = Some (map renE es).
Proof.
  intros CO OK B. destruct (remapStates_spec es [] [] CO OK B) as (s & H & S); [intros id []|].
  cbn [map app] in H. change (zlen (@nil entry)) with 0 in H.
  replace (map (half []) es) with es in H.
  - rewrite H. f_equal. apply map_ext_in. intros e E. unfold full, renE. f_equal. unfold renNeg. apply map_ext_in. intros (k, (id, r)) X.
    assert (I : smem id s = true) by (apply smem_In, S; right; eauto). rewrite I. reflexivity.
  - symmetry. rewrite <- (map_id es) at 2. apply map_ext. intros e. unfold half, renNeg. destruct e as [ty po ne]. cbn. f_equal.
    rewrite <- (map_id ne) at 2. apply map_ext. intros (k, (id, r)). reflexivity.
Qed.
End Rename.

Lemma renR_id r : renR (fun x => x) r = r.
Proof. unfold renR. destruct (0 <=? rState r); [destruct r|]; reflexivity. Qed.
Lemma renE_id e : renE (fun x => x) e = e.
Proof.
  destruct e as [ty po ne]. unfold renE, renPos. cbn. f_equal.
  - rewrite <- (map_id po) at 2. apply map_ext. intros (k, rs). f_equal. rewrite <- (map_id rs) at 2. apply map_ext, renR_id.
  - rewrite <- (map_id ne) at 2. apply map_ext. intros (k, (id, r)). rewrite renR_id. reflexivity.
Qed.
Lemma renE_rules phi e r' : In r' (allRules (renE phi e)) <-> exists r, In r (allRules e) /\ r' = renR phi r.
Proof.
  rewrite allRules_eq, in_app_iff. unfold renE. cbn [ePos eNeg]. rewrite posRules_In, negRules_In. split.
  - intros [(k & rs & X & Y)|(k & i & X)]; apply in_map_iff in X.
    + destruct X as ((k0, rs0) & [= <- <-] & X). apply in_map_iff in Y. destruct Y as (r & <- & Y). exists r. split; [|reflexivity].
      rewrite allRules_eq, in_app_iff. left. apply posRules_In. eauto.
    + destruct X as ((k0, (i0, r)) & [= <- <- <-] & X). exists r. split; [|reflexivity]. rewrite allRules_eq, in_app_iff. right. apply negRules_In. eauto.
  - intros (r & R & ->). rewrite allRules_eq, in_app_iff in R. destruct R as [R|R].
    + apply posRules_In in R. destruct R as (k & rs & X & Y). left. exists k, (map (renR phi) rs). split; [|apply in_map, Y]. apply in_map_iff. exists (k, rs). auto.
    + apply negRules_In in R. destruct R as (k & i & X). right. exists k, i. apply in_map_iff. exists (k, (i, r)). auto.
Qed.

(** ** Dropping *)
(** [states'] is [states] without the states not in use, renumbered by [phi] *)
Record renumbered (nodes : list Z) (states : list entry) (nodes' : list Z) (states' : list entry) (phi : Z -> Z) : Prop := mkRenumbered {
  rn_nodes : nodes' = map phi nodes;
  rn_state : forall x e, In x (usedStates nodes states) -> zget states x = Some e -> zget states' (phi x) = Some (renE phi e);
  rn_inj : forall x y, In x (usedStates nodes states) -> In y (usedStates nodes states) -> phi x = phi y -> x = y;
  rn_only : forall y e, zget states' y = Some e -> exists x, In x (usedStates nodes states) /\ phi x = y
}.
Lemma sorted_nodup l : StronglySorted Z.lt l -> NoDup l.
Proof. induction 1 as [|x l S IH F]; constructor; [|exact IH]. rewrite Forall_forall in F. intros C. specialize (F x C). lia. Qed.
Lemma zget_In {A} (l : list A) i x : zget l i = Some x -> In x l.
Proof. unfold zget. destruct (i <? 0); [discriminate|]. apply nth_error_In. Qed.
Lemma In_zget {A} (l : list A) x : In x l -> exists i, zget l i = Some x.
Proof. intros X. apply In_nth_error in X. destruct X as (n & X). exists (Z.of_nat n). unfold zget. destruct (Z.ltb_spec (Z.of_nat n) 0); [lia|]. rewrite Nat2Z.id. exact X. Qed.

Lemma drop_spec nodes states : (forall e, In e states -> entryOk e) -> cellsOk states ->
  (forall f, In f nodes -> 0 <= f < zlen states) -> (forall e r, In e states -> In r (allRules e) -> rState r < zlen states) ->
  exists nodes' states' phi, dropUnusedStates nodes states = Some (nodes', states') /\ renumbered nodes states nodes' states' phi.
Proof.
  intros OK CO NB RB. unfold dropUnusedStates. set (uss := usedStates nodes states) in *.
  assert (UB : forall u, In u uss -> 0 <= u < zlen states).
  { intros u U. apply used_In in U. destruct U as [U|(e & r & E & R & P & ->)]; [apply NB, U|]. specialize (RB e r E R). lia. }
  pose proof (used_sorted nodes states) as US. fold uss in US. pose proof (sorted_nodup _ US) as ND.
  destruct (Z.eqb_spec (zlen uss) (zlen states)) as [EQ|NE].
  - exists nodes, states, (fun x => x). split; [reflexivity|]. split.
    + symmetry. apply map_id.
    + intros x e _ G. rewrite renE_id. exact G.
    + auto.
    + intros y e G. exists y. split; [|reflexivity]. fold uss.
      (* all the indexes are in use *)
      assert (PI : incl (map Z.of_nat (seq 0 (length states))) uss).
      { apply NoDup_length_incl; [exact ND|rewrite map_length, seq_length; unfold zlen in EQ; lia|]. intros u U. specialize (UB u U).
        apply in_map_iff. exists (Z.to_nat u). split; [lia|]. apply in_seq. unfold zlen in UB. lia. }
      apply zget_Some_inv in G. apply PI. apply in_map_iff. exists (Z.to_nat y). split; [lia|]. apply in_seq. unfold zlen in G. lia.
  - assert (MK : zmake 0 (zlen states) = Some (repeat 0 (length states))).
    { unfold zmake. pose proof (zlen_nonneg states). destruct (Z.ltb_spec (zlen states) 0); [lia|]. unfold zlen. rewrite Nat2Z.id. reflexivity. }
    rewrite MK. cbn [obind].
    assert (ZR : zlen (repeat 0 (length states)) = zlen states) by (unfold zlen; rewrite repeat_length; reflexivity).
    destruct (moveStates_spec uss states (repeat 0 (length states)) 0 US UB ZR ltac:(lia)) as (st1 & ni & M & L1 & L2 & _ & P2 & _).
    rewrite M. cbn [obind]. cbn [Z.add] in *.
    set (phi := fun x => match zget ni x with Some j => j | None => 0 end).
    assert (NI : forall x, 0 <= x < zlen ni -> zget ni x = Some (phi x)).
    { intros x Q. unfold phi. destruct (zget_has ni x Q) as (j & -> & _). reflexivity. }
    assert (LU : zlen uss <= zlen states).
    { assert (I : incl uss (map Z.of_nat (seq 0 (length states)))).
      { intros u U. specialize (UB u U). apply in_map_iff. exists (Z.to_nat u). split; [lia|]. apply in_seq. unfold zlen in UB. lia. }
      pose proof (NoDup_incl_length ND I) as X. rewrite map_length, seq_length in X. unfold zlen. lia. }
    pose proof (zlen_nonneg uss) as ZU.
    (* the states kept *)
    set (kept := firstn (length uss) st1).
    assert (SL : zslice st1 0 (zlen uss) = Some kept).
    { unfold zslice. destruct (Z.leb_spec 0 (zlen uss)); [|lia]. destruct (Z.leb_spec (zlen uss) (zlen st1)); [|lia]. cbn. unfold kept. do 2 f_equal. unfold zlen. lia. }
    rewrite SL. cbn [obind].
    assert (LK : zlen kept = zlen uss) by (unfold kept, zlen in *; rewrite firstn_length; lia).
    assert (GK : forall c u, zget uss c = Some u -> zget kept c = zget states u).
    { intros c u G. pose proof (zget_Some_inv _ _ _ G) as Q. destruct (P2 c u G) as (A & _). rewrite <- A. unfold zget, kept. destruct (Z.ltb_spec c 0); [lia|].
      apply nth_error_firstn'. unfold zlen in Q. lia. }
    assert (KS : forall c e, zget kept c = Some e -> exists u, zget uss c = Some u /\ zget states u = Some e).
    { intros c e G. pose proof (zget_Some_inv _ _ _ G) as Q. destruct (zget_has uss c) as (u & U & _); [lia|]. exists u. split; [exact U|]. rewrite <- (GK c u U). exact G. }
    assert (NM : mapM (fun f => zget ni f) nodes = Some (map phi nodes)). { apply mapM_map. intros f F. apply NI. specialize (NB f F). lia. }
    rewrite NM. cbn [obind].
    assert (INJ : forall c c' u, zget uss c = Some u -> zget uss c' = Some u -> c = c').
    { intros c c' u G G'. destruct (P2 _ _ G) as (_ & A). destruct (P2 _ _ G') as (_ & A'). congruence. }
    rewrite (remapAll phi ni NI kept).
    + cbn [obind]. do 3 eexists. split; [reflexivity|]. split.
      * reflexivity.
      * intros x e X G. apply In_zget in X. fold uss in X. destruct X as (c & X). destruct (P2 _ _ X) as (_ & A).
        assert (PX : phi x = c) by (unfold phi; rewrite A; reflexivity). rewrite PX.
        pose proof (GK c x X) as GK'. rewrite G in GK'. unfold zget in *. destruct (c <? 0); [discriminate|]. rewrite nth_error_map, GK'. reflexivity.
      * intros x y X Y E. fold uss in X, Y. apply In_zget in X, Y. destruct X as (c & X). destruct Y as (c' & Y). destruct (P2 _ _ X) as (_ & A). destruct (P2 _ _ Y) as (_ & A').
        unfold phi in E. rewrite A, A' in E. subst c'. congruence.
      * intros y e G. assert (Q : 0 <= y < zlen uss) by (apply zget_Some_inv in G; unfold zlen in *; rewrite map_length in G; lia).
        destruct (zget_has uss y Q) as (u & U & I). exists u. split; [exact I|]. destruct (P2 _ _ U) as (_ & A). unfold phi. rewrite A. reflexivity.
    + intros i j ei ej k k' id r r' Gi Gj X Y. apply KS in Gi, Gj. destruct Gi as (u & U & Gi). destruct Gj as (u' & U' & Gj).
      destruct (CO _ _ _ _ _ _ _ _ _ Gi Gj X Y) as (A1 & A2 & A3). split; [exact A1|]. split; [exact A2|]. intros P. specialize (A3 P). subst u'. eapply INJ; eassumption.
    + intros e E. apply In_zget in E. destruct E as (c & E). apply KS in E. destruct E as (u & _ & E). apply OK. eapply zget_In, E.
    + intros e r E R. apply In_zget in E. destruct E as (c & E). apply KS in E. destruct E as (u & _ & E). rewrite L2, ZR. eapply RB; [eapply zget_In, E|exact R].
Qed.

(** the rules of a state after renumbering *)
Lemma renumbered_rules nodes states nodes' states' phi x r' : renumbered nodes states nodes' states' phi -> In x (usedStates nodes states) -> 0 <= x < zlen states ->
  (hasRule states' (phi x) r' <-> exists r, hasRule states x r /\ r' = renR phi r).
Proof.
  intros R X Q. destruct (zget_has states x Q) as (e & G & _). pose proof (rn_state _ _ _ _ _ R x e X G) as G'. unfold hasRule. split.
  - intros (e' & GE & I). rewrite G' in GE. injection GE as <-. apply renE_rules in I. destruct I as (r & I & ->). exists r. split; [exists e; auto|reflexivity].
  - intros (r & (e0 & GE & I) & ->). rewrite G in GE. injection GE as <-. exists (renE phi e). split; [exact G'|]. apply renE_rules. eauto.
Qed.
