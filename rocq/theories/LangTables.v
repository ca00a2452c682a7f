(** Writing the tables of a grammar. *)
From Coq Require Import ZArith List Bool Lia Permutation Sorted.
From Verif Require Import Base BaseProofs Grammar RulesSpec Parser ParserSpec LangBuild LangSpec LangProofs LangFrame LangTotal TablesSpec.
Import ListNotations.
Open Scope Z_scope.

(** ** Sorting *)
Lemma insertInt_perm x l : Permutation (insertInt x l) (x :: l).
Proof.
  induction l as [|y l IH]; [apply Permutation_refl|]. cbn [insertInt]. destruct (x <=? y); [apply Permutation_refl|].
  eapply perm_trans; [apply perm_skip, IH|apply perm_swap].
Qed.
Lemma sortInts_perm l : Permutation (sortInts l) l.
Proof. induction l as [|x l IH]; [constructor|]. cbn. eapply perm_trans; [apply insertInt_perm|apply perm_skip, IH]. Qed.
Lemma insertInt_sorted x l : StronglySorted Z.lt l -> ~ In x l -> StronglySorted Z.lt (insertInt x l).
Proof.
  induction l as [|y l IH]; intros S N; cbn [insertInt]; [constructor; constructor|]. inversion S as [|? ? S1 S2]; subst.
  destruct (Z.leb_spec x y) as [L|L].
  - assert (x < y) by (assert (x <> y) by (intros ->; apply N; left; reflexivity); lia). constructor; [exact S|]. constructor; [assumption|].
    eapply Forall_impl; [|exact S2]. cbn. intros; lia.
  - constructor; [apply IH; [exact S1|intros C; apply N; right; exact C]|].
    apply Forall_forall. intros z Z0. apply (Permutation_in _ (insertInt_perm x l)) in Z0. destruct Z0 as [<-|Z0]; [lia|].
    rewrite Forall_forall in S2. apply S2, Z0.
Qed.
Lemma sortInts_sorted l : NoDup l -> StronglySorted Z.lt (sortInts l).
Proof.
  induction l as [|x l IH]; intros N; cbn; [constructor|]. inversion N as [|? ? N1 N2]; subst. apply insertInt_sorted; [apply IH, N2|].
  intros C. apply N1. apply (Permutation_in _ (sortInts_perm l)), C.
Qed.
Lemma sortInts_In x l : In x (sortInts l) <-> In x l.
Proof. split; apply Permutation_in; [|apply Permutation_sym]; apply sortInts_perm. Qed.

(** ** Rules of a state by key *)
Section Entry.
Variable e : entry.
Hypothesis OK : entryOk e.

Lemma entryKeys_nodup : NoDup (entryKeys e).
Proof.
  unfold entryKeys. pose proof (eo_pos e OK) as A. pose proof (eo_neg e OK) as B.
  assert (D : forall k, In k (map fst (ePos e)) -> ~ In k (map fst (eNeg e))).
  { intros k X Y. apply in_map_iff in X, Y. destruct X as ((k1, rs) & <- & X). destruct Y as ((k2, (i, r)) & E & Y). cbn in E. subst k2.
    apply (eo_posKey e OK) in X. apply (eo_negKey e OK) in Y. cbn in *. lia. }
  revert A D. generalize (map fst (ePos e)) as l. induction l as [|x l IH]; intros A D; [exact B|]. inversion A as [|? ? A1 A2]; subst. cbn [app]. constructor.
  - intros C. apply in_app_iff in C. destruct C as [C|C]; [auto|]. apply (D x (or_introl eq_refl) C).
  - apply IH; [exact A2|]. intros k K. apply D. right. exact K.
Qed.
Lemma entryRules_pos k rs : In (k, rs) (ePos e) -> entryRules e k = rs.
Proof. intros X. unfold entryRules. apply (mget_In _ _ _ (eo_pos e OK)) in X. rewrite X. reflexivity. Qed.
Lemma entryRules_neg k i r : In (k, (i, r)) (eNeg e) -> entryRules e k = [r].
Proof.
  intros X. unfold entryRules. destruct (mget k (ePos e)) as [rs|] eqn:M.
  - apply (mget_In _ _ _ (eo_pos e OK)) in M. apply (eo_posKey e OK) in M. apply (eo_negKey e OK) in X. lia.
  - apply (mget_In _ _ _ (eo_neg e OK)) in X. rewrite X. reflexivity.
Qed.
Lemma entryRules_key k : In k (entryKeys e) -> entryRules e k <> [] /\ forall r, In r (entryRules e k) -> rToken r = k.
Proof.
  intros X. unfold entryKeys in X. apply in_app_iff in X. destruct X as [X|X]; apply in_map_iff in X.
  - destruct X as ((k1, rs) & <- & X). cbn [fst]. rewrite (entryRules_pos _ _ X). apply (eo_posKey e OK) in X. tauto.
  - destruct X as ((k1, (i, r)) & <- & X). cbn [fst]. rewrite (entryRules_neg _ _ _ X). split; [discriminate|]. intros r' [<-|[]]. apply (eo_negKey e OK) in X. tauto.
Qed.
Lemma entryRules_all r : In r (allRules e) <-> In (rToken r) (entryKeys e) /\ In r (entryRules e (rToken r)).
Proof.
  rewrite allRules_eq, in_app_iff. unfold entryKeys. rewrite in_app_iff. split.
  - intros [X|X].
    + apply posRules_In in X. destruct X as (k & rs & X & Y). pose proof (eo_posKey e OK _ _ X) as (_ & _ & T). pose proof (T r Y) as T'. subst k.
      rewrite (entryRules_pos _ _ X). split; [|exact Y]. left. apply in_map_iff. exists (rToken r, rs). auto.
    + apply negRules_In in X. destruct X as (k & i & X). pose proof (eo_negKey e OK _ _ _ X) as (_ & T). subst k.
      rewrite (entryRules_neg _ _ _ X). split; [|left; reflexivity]. right. apply in_map_iff. exists (rToken r, (i, r)). auto.
  - intros (K & X). destruct K as [K|K]; apply in_map_iff in K.
    + destruct K as ((k, rs) & E & K). cbn [fst] in E. subst k. rewrite (entryRules_pos _ _ K) in X. left. apply posRules_In. eauto.
    + destruct K as ((k, (i, r')) & E & K). cbn [fst] in E. subst k. rewrite (entryRules_neg _ _ _ K) in X. destruct X as [->|[]]. right. apply negRules_In. eauto.
Qed.
End Entry.

(** ** Slices of growing tables *)
Lemma zlen_app {A} (a b : list A) : zlen (a ++ b) = zlen a + zlen b.
Proof. unfold zlen. rewrite app_length. lia. Qed.
Lemma zslice_ext {A} (l l' : list A) a b x : zslice l a b = Some x -> zslice (l ++ l') a b = Some x.
Proof.
  unfold zslice. intros H. destruct ((0 <=? a) && (a <=? b) && (b <=? zlen l)) eqn:C; [|discriminate]. apply andb_true_iff in C as [C C3]. apply andb_true_iff in C as [C1 C2].
  apply Z.leb_le in C1, C2, C3. rewrite zlen_app. pose proof (zlen_nonneg l'). destruct (Z.leb_spec 0 a); [|lia]. destruct (Z.leb_spec a b); [|lia]. destruct (Z.leb_spec b (zlen l + zlen l')); [|lia].
  cbn [andb]. rewrite <- H. f_equal. unfold zlen in *. rewrite skipn_app, firstn_app. rewrite skipn_length.
  replace (Z.to_nat (b - a) - (length l - Z.to_nat a))%nat with 0%nat by lia. rewrite firstn_O, app_nil_r. reflexivity.
Qed.
Lemma zslice_mid {A} (a x b : list A) : zslice (a ++ x ++ b) (zlen a) (zlen a + zlen x) = Some x.
Proof.
  unfold zslice. rewrite !zlen_app. pose proof (zlen_nonneg a). pose proof (zlen_nonneg x). pose proof (zlen_nonneg b).
  destruct (Z.leb_spec 0 (zlen a)); [|lia]. destruct (Z.leb_spec (zlen a) (zlen a + zlen x)); [|lia]. destruct (Z.leb_spec (zlen a + zlen x) (zlen a + (zlen x + zlen b))); [|lia].
  cbn [andb]. f_equal. replace (zlen a + zlen x - zlen a) with (zlen x) by lia. unfold zlen. rewrite !Nat2Z.id.
  rewrite skipn_app, skipn_all, Nat.sub_diag. cbn [app skipn]. rewrite firstn_app, firstn_all, Nat.sub_diag, firstn_O, app_nil_r. reflexivity.
Qed.
Lemma zslice_00 {A} (l : list A) : zslice l 0 0 = Some [].
Proof. unfold zslice. pose proof (zlen_nonneg l). destruct (Z.leb_spec 0 (zlen l)); [reflexivity|lia]. Qed.
Lemma zget_app_l {A} (a b : list A) i x : zget a i = Some x -> zget (a ++ b) i = Some x.
Proof.
  intros H. pose proof (zget_Some_inv _ _ _ H) as Q. unfold zget in *. destruct (Z.ltb_spec i 0); [lia|]. rewrite nth_error_app1; [exact H|]. unfold zlen in Q. lia.
Qed.
Lemma zget_app_r {A} (a b : list A) i : zlen a <= i -> zget (a ++ b) i = zget b (i - zlen a).
Proof.
  intros H. unfold zget. pose proof (zlen_nonneg a). destruct (Z.ltb_spec i 0); [lia|]. destruct (Z.ltb_spec (i - zlen a) 0); [lia|].
  unfold zlen in *. rewrite nth_error_app2 by lia. f_equal. lia.
Qed.
Lemma zget_app_inv {A} (a b : list A) i x : zget (a ++ b) i = Some x -> zget a i = Some x \/ zlen a <= i /\ zget b (i - zlen a) = Some x.
Proof.
  intros H. destruct (Z.lt_ge_cases i (zlen a)) as [L|L]; [|right; split; [exact L|]; rewrite zget_app_r in H by exact L; exact H].
  left. unfold zget in *. destruct (i <? 0) eqn:N; [discriminate|]. apply Z.ltb_ge in N. rewrite nth_error_app1 in H; [exact H|]. unfold zlen in L. lia.
Qed.

Lemma nth_error_firstn' {A} (l : list A) : forall k n, (n < k)%nat -> nth_error (firstn k l) n = nth_error l n.
Proof. induction l as [|x l IH]; intros [|k] [|n] H; try lia; try reflexivity. cbn. apply IH. lia. Qed.
Lemma nth_error_skipn' {A} (l : list A) : forall k n, nth_error (skipn k l) n = nth_error l (k + n).
Proof. induction l as [|x l IH]; intros [|k] n; try reflexivity; [destruct n; reflexivity|]. cbn. apply IH. Qed.

(** ** One state *)
(** [st] describes the rules of [e] in the tables *)
Record stateFits (e : entry) (st : state) (rules : list rule) (multi : list multiRule) (rs : list rule) (ms : list multiRule) : Prop := mkFits {
  sf_rules : zslice rules (sLow st) (sHigh st) = Some rs;
  sf_multi : zslice multi (sLowMulti st) (sHighMulti st) = Some ms;
  sf_sorted : StronglySorted Z.lt (map rToken rs);
  sf_msorted : StronglySorted Z.lt (map mToken ms);
  sf_one : forall r, In r rs -> In (rToken r) (entryKeys e) /\ entryRules e (rToken r) = [r];
  sf_many : forall m, In m ms -> In (mToken m) (entryKeys e) /\ (2 <= length (entryRules e (mToken m)))%nat /\
      zslice rules (mLow m) (mHigh m) = Some (entryRules e (mToken m));
  sf_all : forall k, In k (entryKeys e) -> (exists r, In r rs /\ rToken r = k) \/ (exists m, In m ms /\ mToken m = k)
}.
Lemma fits_ext e st rules multi rs ms rules' multi' : stateFits e st rules multi rs ms -> stateFits e st (rules ++ rules') (multi ++ multi') rs ms.
Proof.
  intros [A B C D E F G]. split; auto using zslice_ext. intros m M. destruct (F m M) as (F1 & F2 & F3). auto using zslice_ext.
Qed.

(** consecutive ranges *)
Fixpoint chained (low : Z) (ms : list multiRule) (high : Z) : Prop :=
  match ms with
  | [] => low = high
  | m :: r => mLow m = low /\ low < mHigh m /\ chained (mHigh m) r high
  end.
Lemma writeMulti_spec e (OK : entryOk e) : forall ks rules multi rules' multi', (forall k, In k ks -> In k (entryKeys e)) ->
  writeMulti e ks (zlen rules) rules multi = (rules', multi') ->
  exists rr ms, rules' = rules ++ rr /\ multi' = multi ++ ms /\ map mToken ms = ks /\ chained (zlen rules) ms (zlen rules') /\
    forall m, In m ms -> zslice rules' (mLow m) (mHigh m) = Some (entryRules e (mToken m)).
Proof.
  induction ks as [|k ks IH]; intros rules multi rules' multi' K H; cbn [writeMulti] in H.
  - injection H as <- <-. exists [], []. rewrite !app_nil_r. cbn. split; [reflexivity|]. split; [reflexivity|]. split; [reflexivity|]. split; [reflexivity|easy].
  - destruct (entryRules_key e OK k (K k (or_introl eq_refl))) as (NE & _). set (rs := entryRules e k) in *.
    rewrite <- zlen_app in H. apply IH in H; [|intros k' K'; apply K; right; exact K'].
    destruct H as (rr & ms & -> & -> & M & CH & F). exists (rs ++ rr), (mkMulti k (zlen rules) (zlen (rules ++ rs)) :: ms).
    rewrite <- !app_assoc in *. split; [reflexivity|]. split; [reflexivity|]. split; [cbn [map mToken]; congruence|]. split.
    + cbn [chained mLow mHigh]. split; [reflexivity|]. split; [|exact CH]. rewrite zlen_app. destruct rs; [contradiction|]. unfold zlen. cbn [length]. lia.
    + intros m [<-|X]; [|apply F, X]. cbn [mLow mHigh mToken]. rewrite zlen_app. apply zslice_mid.
Qed.
Lemma mapM_total {A B} (f : A -> option B) l : (forall x, In x l -> exists y, f x = Some y) -> exists ys, mapM f l = Some ys.
Proof.
  induction l as [|x l IH]; intros H; cbn [mapM]; [eauto|]. destruct (H x (or_introl eq_refl)) as (y & ->). cbn [obind].
  destruct IH as (ys & ->); [intros x' X; apply H; right; exact X|]. cbn. eauto.
Qed.
Lemma mapM_F2 {A B} (f : A -> option B) l : forall ys, mapM f l = Some ys -> Forall2 (fun x y => f x = Some y) l ys.
Proof.
  induction l as [|x l IH]; intros ys H; cbn [mapM] in H; [injection H as <-; constructor|]. ob H. ob H. injection H as <-. constructor; auto.
Qed.
Lemma Forall2_In_r {A B} (R : A -> B -> Prop) l l' y : Forall2 R l l' -> In y l' -> exists x, In x l /\ R x y.
Proof. induction 1 as [|a b l l' X F IH]; intros Y; [destruct Y|]. destruct Y as [<-|Y]; [exists a; cbn; auto|]. destruct (IH Y) as (x & X1 & X2). exists x. cbn. auto. Qed.
Lemma Forall2_In_l {A B} (R : A -> B -> Prop) l l' x : Forall2 R l l' -> In x l -> exists y, In y l' /\ R x y.
Proof. induction 1 as [|a b l l' X F IH]; intros Y; [destruct Y|]. destruct Y as [<-|Y]; [exists b; cbn; auto|]. destruct (IH Y) as (z & X1 & X2). exists z. cbn. auto. Qed.

(** [from st n]: a range of [n] items starting at [low], or [0, 0) *)
Definition placed (low n a b : Z) : Prop := n = 0 /\ a = 0 /\ b = 0 \/ 0 < n /\ a = low /\ b = low + n.
Lemma buildState_spec e (OK : entryOk e) rules multi : exists st rs rr ms, buildState e rules multi = Some (st, rules ++ rs ++ rr, multi ++ ms) /\
  stateFits e st (rules ++ rs ++ rr) (multi ++ ms) rs ms /\ sTypes st = eTypes e /\
  placed (zlen rules) (zlen rs) (sLow st) (sHigh st) /\ placed (zlen multi) (zlen ms) (sLowMulti st) (sHighMulti st) /\
  chained (zlen rules + zlen rs) ms (zlen (rules ++ rs ++ rr)).
Proof.
  unfold buildState. destruct (rmKeys e) as (rkeys, mkeys) eqn:RM. unfold rmKeys in RM. injection RM as ER EM.
  assert (RK : forall k, In k rkeys -> In k (entryKeys e) /\ exists r, entryRules e k = [r]).
  { intros k K. rewrite <- ER in K. apply (Permutation_in _ (sortInts_perm _)) in K. apply filter_In in K. destruct K as (K1 & K2). split; [exact K1|].
    apply negb_true_iff, Z.ltb_ge in K2. destruct (entryRules_key e OK k K1) as (NE & _). destruct (entryRules e k) as [|r [|r' rs]]; [contradiction|eauto|].
    unfold zlen in K2. cbn [length] in K2. lia. }
  assert (MK : forall k, In k mkeys -> In k (entryKeys e) /\ (2 <= length (entryRules e k))%nat).
  { intros k K. rewrite <- EM in K. apply (Permutation_in _ (sortInts_perm _)) in K. apply filter_In in K. destruct K as (K1 & K2). split; [exact K1|].
    apply Z.ltb_lt in K2. unfold zlen in K2. lia. }
  pose proof (entryKeys_nodup e OK) as ND.
  assert (SR : StronglySorted Z.lt rkeys) by (rewrite <- ER; apply sortInts_sorted, NoDup_filter, ND).
  assert (SM : StronglySorted Z.lt mkeys) by (rewrite <- EM; apply sortInts_sorted, NoDup_filter, ND).
  assert (AK : forall k, In k (entryKeys e) -> In k rkeys \/ In k mkeys).
  { intros k K. rewrite <- ER, <- EM, !sortInts_In, !filter_In. destruct (1 <? zlen (entryRules e k)); auto. }
  destruct (mapM_total (fun k => zget (entryRules e k) 0) rkeys) as (rs & HM).
  { intros k K. destruct (RK k K) as (_ & r & ->). exists r. reflexivity. }
  rewrite HM. cbn [obind]. apply mapM_F2 in HM.
  assert (HM' : Forall2 (fun k r => In k (entryKeys e) /\ entryRules e k = [r] /\ rToken r = k) rkeys rs).
  { clear - HM RK OK. induction HM as [|k r ks rs H F IH]; constructor.
    - destruct (RK k (or_introl eq_refl)) as (K1 & r' & K2). rewrite K2 in H. injection H as <-. split; [exact K1|]. split; [exact K2|].
      apply (entryRules_key e OK k K1). rewrite K2. left. reflexivity.
    - apply IH. intros k' K'. apply RK. right. exact K'. }
  assert (RT : map rToken rs = rkeys).
  { clear - HM'. induction HM' as [|k r ks rs (_ & _ & H) F IH]; [reflexivity|]. cbn [map]. congruence. }
  destruct (writeMulti e mkeys (zlen (rules ++ rs)) (rules ++ rs) multi) as (rules', multi') eqn:WM.
  apply (writeMulti_spec e OK) in WM; [|intros k K; apply MK, K]. destruct WM as (rr & ms & -> & -> & MT & CH & F).
  eexists _, rs, rr, ms. rewrite <- app_assoc in *. split; [reflexivity|].
  assert (LR : zlen rkeys = zlen rs) by (rewrite <- RT; unfold zlen; rewrite map_length; reflexivity).
  assert (LM : zlen mkeys = zlen ms) by (rewrite <- MT; unfold zlen; rewrite map_length; reflexivity).
  assert (P1 : placed (zlen rules) (zlen rs) (if 0 <? zlen rkeys then zlen rules else 0) ((if 0 <? zlen rkeys then zlen rules else 0) + zlen rkeys)).
  { rewrite LR. pose proof (zlen_nonneg rs). unfold placed. destruct (Z.ltb_spec 0 (zlen rs)); lia. }
  assert (P2 : placed (zlen multi) (zlen ms) (if 0 <? zlen mkeys then zlen multi else 0) ((if 0 <? zlen mkeys then zlen multi else 0) + zlen mkeys)).
  { rewrite LM. pose proof (zlen_nonneg ms). unfold placed. destruct (Z.ltb_spec 0 (zlen ms)); lia. }
  split; [|split; [reflexivity|split; [exact P1|split; [exact P2|rewrite <- zlen_app; exact CH]]]].
  split; cbn [sLow sHigh sLowMulti sHighMulti].
  - destruct P1 as [(N & -> & ->)|(N & -> & ->)]; [|apply zslice_mid]. rewrite zslice_00. destruct rs; [reflexivity|]. unfold zlen in N. cbn in N. lia.
  - destruct P2 as [(N & -> & ->)|(N & -> & ->)].
    + rewrite zslice_00. destruct ms; [reflexivity|]. unfold zlen in N. cbn in N. lia.
    + pose proof (zslice_mid multi ms []) as X. rewrite app_nil_r in X. exact X.
  - rewrite RT. exact SR.
  - rewrite MT. exact SM.
  - intros r R. destruct (Forall2_In_r _ _ _ _ HM' R) as (k & K & K1 & K2 & <-). auto.
  - intros m M. assert (K : In (mToken m) mkeys) by (rewrite <- MT; apply in_map, M). destruct (MK _ K). auto.
  - intros k K. destruct (AK k K) as [X|X].
    + destruct (Forall2_In_l _ _ _ _ HM' X) as (r & R & _ & _ & <-). eauto.
    + rewrite <- MT in X. apply in_map_iff in X. destruct X as (m & <- & M). eauto.
Qed.

(** ** All the states *)
Record written_ (es : list entry) (sts : list state) (rules : list rule) (multi : list multiRule) : Prop := mkWritten {
  wr_len : length sts = length es;
  wr_fits : forall i e st, zget es i = Some e -> zget sts i = Some st -> sTypes st = eTypes e /\ exists rs ms, stateFits e st rules multi rs ms;
  wr_bound : forall i st, zget sts i = Some st -> 0 <= sLow st <= sHigh st /\ sHigh st <= zlen rules /\ 0 <= sLowMulti st <= sHighMulti st /\ sHighMulti st <= zlen multi;
  wr_mbound : forall k m, zget multi k = Some m -> 0 <= mLow m < mHigh m /\ mHigh m <= zlen rules;
  wr_rules : forall idx, 0 <= idx < zlen rules -> unique (fun x => owns sts multi x idx);
  wr_multi : forall idx, 0 <= idx < zlen multi -> unique (fun i => ownsMulti sts i idx);
  wr_src : forall r, In r rules -> exists i e, zget es i = Some e /\ In r (allRules e)
}.

Lemma chained_le : forall ms low high, chained low ms high -> low <= high.
Proof. induction ms as [|m ms IH]; intros low high C; cbn [chained] in C; [lia|]. destruct C as (A & B & C). apply IH in C. lia. Qed.
Lemma chained_bound : forall ms low high k m, chained low ms high -> zget ms k = Some m -> low <= mLow m < mHigh m /\ mHigh m <= high.
Proof.
  induction ms as [|m0 ms IH]; intros low high k m C G; [apply zget_Some_inv in G; cbn in G; lia|]. cbn [chained] in C. destruct C as (A & B & C).
  apply (zget_app_inv [m0] ms) in G. destruct G as [G|(_ & G)].
  - pose proof (zget_Some_inv _ _ _ G) as Q. cbn in Q. assert (k = 0) by lia. subst k. cbn in G. injection G as ->. apply chained_le in C. lia.
  - apply (IH _ _ _ _ C) in G. lia.
Qed.
Lemma chained_unique : forall ms low high idx, chained low ms high -> low <= idx < high -> unique (fun k => exists m, zget ms k = Some m /\ mLow m <= idx < mHigh m).
Proof.
  induction ms as [|m0 ms IH]; intros low high idx C Q; cbn [chained] in C; [lia|]. destruct C as (A & B & C).
  destruct (Z.lt_ge_cases idx (mHigh m0)) as [L|L].
  - exists 0. split; [exists m0; split; [reflexivity|lia]|]. intros k (m & G & R). apply (zget_app_inv [m0] ms) in G. destruct G as [G|(_ & G)].
    + apply zget_Some_inv in G. cbn in G. lia.
    + apply (chained_bound _ _ _ _ _ C) in G. lia.
  - destruct (IH _ _ idx C) as (k & (m & G & R) & U); [lia|]. exists (k + 1). split.
    + exists m. split; [|exact R]. change (m0 :: ms) with ([m0] ++ ms). pose proof (zget_Some_inv _ _ _ G). rewrite zget_app_r by (cbn; lia). replace (k + 1 - zlen [m0]) with k by (cbn; lia). exact G.
    + intros k' (m' & G' & R'). apply (zget_app_inv [m0] ms) in G'. destruct G' as [G'|(_ & G')].
      * pose proof (zget_Some_inv _ _ _ G') as Q'. cbn in Q'. assert (k' = 0) by lia. subst k'. cbn in G'. injection G' as <-. lia.
      * assert (k' - zlen [m0] = k) by (apply U; eauto). cbn in *. lia.
Qed.

Lemma written_step es sts rules multi e : entryOk e -> written_ es sts rules multi -> exists st rules' multi',
  buildState e rules multi = Some (st, rules', multi') /\ written_ (es ++ [e]) (sts ++ [st]) rules' multi'.
Proof.
  intros OK [L F B MB RU MU SR]. destruct (buildState_spec e OK rules multi) as (st & rs & rr & ms & H & FT & TY & P1 & P2 & CH).
  exists st, (rules ++ rs ++ rr), (multi ++ ms). split; [exact H|].
  pose proof (zlen_nonneg rules) as ZR. pose proof (zlen_nonneg multi) as ZM. pose proof (zlen_nonneg rs) as ZS. pose proof (zlen_nonneg ms) as ZMS. pose proof (zlen_nonneg rr) as ZRR.
  assert (ZT : zlen (rules ++ rs ++ rr) = zlen rules + zlen rs + zlen rr) by (rewrite !zlen_app; lia).
  assert (ZTM : zlen (multi ++ ms) = zlen multi + zlen ms) by apply zlen_app.
  assert (LS : zlen sts = zlen es) by (unfold zlen; lia).
  split.
  - rewrite !app_length. cbn. lia.
  - intros i e' st' G G'. apply zget_app_inv in G, G'. destruct G as [G|(Q & G)]; destruct G' as [G'|(Q' & G')].
    + destruct (F i e' st' G G') as (T & rs' & ms' & X). split; [exact T|]. exists rs', ms'. apply fits_ext, X.
    + apply zget_Some_inv in G. lia.
    + apply zget_Some_inv in G'. lia.
    + pose proof (zget_Some_inv _ _ _ G) as Q0. cbn in Q0. assert (X : i - zlen es = 0) by lia. assert (X' : i - zlen sts = 0) by lia. rewrite X in G. rewrite X' in G'. cbn in G, G'.
      injection G as <-. injection G' as <-. eauto.
  - intros i st' G. apply zget_app_inv in G. destruct G as [G|(Q & G)].
    + specialize (B i st' G). lia.
    + pose proof (zget_Some_inv _ _ _ G) as Q0. cbn in Q0. assert (X : i - zlen sts = 0) by lia. rewrite X in G. cbn in G. injection G as <-. unfold placed in *. lia.
  - intros k m G. apply zget_app_inv in G. destruct G as [G|(Q & G)]; [specialize (MB k m G); lia|]. apply (chained_bound _ _ _ _ _ CH) in G. lia.
  - intros idx Q. destruct (Z.lt_ge_cases idx (zlen rules)) as [LT|GE].
    + destruct (RU idx) as (x & X & U); [lia|]. exists x. split.
      * destruct x as [i|k]; cbn [owns] in *; [destruct X as (st' & G & R); exists st'|destruct X as (m & G & R); exists m]; split; auto using zget_app_l.
      * intros y Y. apply U. destruct y as [i|k]; cbn [owns] in *; destruct Y as (z & G & R); exists z; (split; [|exact R]); apply zget_app_inv in G; destruct G as [G|(Q' & G)]; auto.
        -- pose proof (zget_Some_inv _ _ _ G) as Q0. cbn in Q0. assert (X0 : i - zlen sts = 0) by lia. rewrite X0 in G. cbn in G. injection G as <-. unfold placed in P1. lia.
        -- apply (chained_bound _ _ _ _ _ CH) in G. lia.
    + assert (OLD : forall i z, zget sts i = Some z -> sLow z <= idx < sHigh z -> False).
      { intros i z G R. specialize (B i z G). lia. }
      assert (OLDM : forall k m, zget multi k = Some m -> mLow m <= idx < mHigh m -> False).
      { intros k m G R. specialize (MB k m G). lia. }
      destruct (Z.lt_ge_cases idx (zlen rules + zlen rs)) as [LT2|GE2].
      * exists (inl (zlen sts)). split.
        -- cbn [owns]. exists st. split; [rewrite zget_app_r by lia; rewrite Z.sub_diag; reflexivity|]. unfold placed in P1. lia.
        -- intros y Y. destruct y as [i|k]; cbn [owns] in Y; destruct Y as (z & G & R); apply zget_app_inv in G; destruct G as [G|(Q' & G)].
           ++ exfalso. eapply OLD; eauto.
           ++ pose proof (zget_Some_inv _ _ _ G) as Q0. cbn in Q0. f_equal. lia.
           ++ exfalso. eapply OLDM; eauto.
           ++ apply (chained_bound _ _ _ _ _ CH) in G. lia.
      * destruct (chained_unique _ _ _ idx CH) as (k & (m & G & R) & U); [lia|]. exists (inr (zlen multi + k)). split.
        -- cbn [owns]. exists m. split; [|exact R]. pose proof (zget_Some_inv _ _ _ G). rewrite zget_app_r by lia. replace (zlen multi + k - zlen multi) with k by lia. exact G.
        -- intros y Y. destruct y as [i|k']; cbn [owns] in Y; destruct Y as (z & G' & R'); apply zget_app_inv in G'; destruct G' as [G'|(Q' & G')].
           ++ exfalso. eapply OLD; eauto.
           ++ pose proof (zget_Some_inv _ _ _ G') as Q0. cbn in Q0. assert (X0 : i - zlen sts = 0) by lia. rewrite X0 in G'. cbn in G'. injection G' as <-. unfold placed in P1. lia.
           ++ exfalso. eapply OLDM; eauto.
           ++ f_equal. assert (k' - zlen multi = k) by (apply U; eauto). lia.
  - intros idx Q. destruct (Z.lt_ge_cases idx (zlen multi)) as [LT|GE].
    + destruct (MU idx) as (i & (z & G & R) & U); [lia|]. exists i. split; [exists z; auto using zget_app_l|].
      intros y (z' & G' & R'). apply zget_app_inv in G'. destruct G' as [G'|(Q' & G')]; [apply U; exists z'; auto|].
      pose proof (zget_Some_inv _ _ _ G') as Q0. cbn in Q0. assert (X0 : y - zlen sts = 0) by lia. rewrite X0 in G'. cbn in G'. injection G' as <-. unfold placed in P2. lia.
    + exists (zlen sts). split; [exists st; split; [rewrite zget_app_r by lia; rewrite Z.sub_diag; reflexivity|unfold placed in P2; lia]|].
      intros y (z' & G' & R'). apply zget_app_inv in G'. destruct G' as [G'|(Q' & G')]; [specialize (B y z' G'); lia|]. pose proof (zget_Some_inv _ _ _ G') as Q0. cbn in Q0. lia.
  - assert (GE : zget (es ++ [e]) (zlen es) = Some e) by (rewrite zget_app_r by lia; rewrite Z.sub_diag; reflexivity).
    intros r R. rewrite in_app_iff, in_app_iff in R. destruct R as [R|[R|R]].
    + destruct (SR r R) as (i & e' & G & X). exists i, e'. auto using zget_app_l.
    + exists (zlen es), e. split; [exact GE|]. destruct (sf_one _ _ _ _ _ _ FT r R) as (K & X). apply (entryRules_all e OK). split; [exact K|]. rewrite X. left. reflexivity.
    + exists (zlen es), e. split; [exact GE|]. apply In_nth_error in R. destruct R as (n & R).
      assert (RL : (n < length rr)%nat) by (apply nth_error_Some; congruence).
      destruct (chained_unique _ _ _ (zlen rules + zlen rs + Z.of_nat n) CH) as (k & (m & G & Q) & _); [unfold zlen in *; lia|].
      destruct (sf_many _ _ _ _ _ _ FT m) as (K & _ & SL).
      { unfold zget in G. destruct (k <? 0); [discriminate|]. eapply nth_error_In, G. }
      destruct (chained_bound _ _ _ _ _ CH G) as (Q1 & Q2).
      assert (IR : In r (entryRules e (mToken m))).
      { unfold zslice in SL. destruct (_ && _); [|discriminate]. injection SL as <-.
        assert (NE : nth_error (rules ++ rs ++ rr) (Z.to_nat (mLow m) + Z.to_nat (zlen rules + zlen rs + Z.of_nat n - mLow m)) = Some r).
        { replace (Z.to_nat (mLow m) + _)%nat with (length rules + (length rs + n))%nat by (unfold zlen in *; lia).
          rewrite nth_error_app2 by lia. rewrite nth_error_app2 by lia. rewrite <- R. f_equal. lia. }
        eapply nth_error_In with (n := Z.to_nat (zlen rules + zlen rs + Z.of_nat n - mLow m)).
        rewrite nth_error_firstn' by lia. rewrite nth_error_skipn'. exact NE. }
      apply (entryRules_all e OK). destruct (entryRules_key e OK _ K) as (_ & T). rewrite (T r IR). auto.
Qed.
Lemma writeStates_spec : forall es es0 sts rules multi, (forall e, In e es -> entryOk e) -> written_ es0 sts rules multi ->
  exists sts' rules' multi', writeStates es sts rules multi = Some (sts', rules', multi') /\ written_ (es0 ++ es) sts' rules' multi'.
Proof.
  induction es as [|e es IH]; intros es0 sts rules multi OK W; cbn [writeStates].
  - rewrite app_nil_r. eauto.
  - destruct (written_step es0 sts rules multi e (OK e (or_introl eq_refl)) W) as (st & rules' & multi' & H & W'). rewrite H. cbn [obind].
    destruct (IH (es0 ++ [e]) (sts ++ [st]) rules' multi') as (a & b & c & H2 & W2); [intros e' E; apply OK; right; exact E|exact W'|].
    rewrite <- app_assoc in W2. eauto 6.
Qed.
Lemma written_empty : written_ [] [] [] [].
Proof.
  assert (N : forall A i (x : A), zget [] i = Some x -> False) by (intros A i x G; apply zget_Some_inv in G; cbn in G; lia).
  split; [reflexivity|..].
  - intros i e st G. destruct (N _ _ _ G).
  - intros i st G. destruct (N _ _ _ G).
  - intros k m G. destruct (N _ _ _ G).
  - intros idx Q. cbn in Q. lia.
  - intros idx Q. cbn in Q. lia.
  - intros r [].
Qed.
