(** Invariant of the bit set and the meaning of each operation. *)
From Coq Require Import ZArith NArith List Lia Bool Sorted.
From Verif Require Import Base BaseProofs QueueProofs IntSet.
Import ListNotations.
Open Scope Z_scope.

Notation gN := (g 0%N).

Definition wf (s : iset) : Prop :=
  exists lo hi, lowItem s = 64 * lo /\ highItem s = 64 * hi /\ lo <= 0 <= hi /\
    zlen (chunks s) = hi - lo /\ forall i, (gN (chunks s) i < 2 ^ 64)%N.

(** The chunk holding items 64c .. 64c+63. *)
Definition cf (s : iset) (c : Z) : N :=
  if c <? lowItem s / 64 then 0%N else gN (chunks s) (c - lowItem s / 64).

(** Membership read off the representation. *)
Definition mem (s : iset) (x : Z) : bool := N.testbit (cf s (x / 64)) (Z.to_N (x mod 64)).

Lemma shiftr6 x : Z.shiftr x IntSizeShift = x / 64.
Proof. unfold IntSizeShift. rewrite Z.shiftr_div_pow2 by lia. reflexivity. Qed.

Lemma baseItem_eq x : baseItem x = 64 * (x / 64).
Proof.
  unfold baseItem, IntSize. change (64 - 1) with (Z.ones 6).
  rewrite <- Z.ldiff_land, Z.ldiff_ones_r by lia.
  rewrite Z.shiftr_div_pow2, Z.shiftl_mul_pow2 by lia. change (2 ^ 6) with 64. lia.
Qed.

Lemma land63 x : Z.land x (IntSize - 1) = x mod 64.
Proof. unfold IntSize. change (64 - 1) with (Z.ones 6). rewrite Z.land_ones by lia. reflexivity. Qed.

Lemma bitMask_bit x n :
  N.testbit (bitMask x) n = N.eqb n (Z.to_N (x mod 64)).
Proof.
  unfold bitMask. rewrite land63.
  rewrite N.shiftl_1_l. rewrite N.pow2_bits_eqb. apply N.eqb_sym.
Qed.

Lemma cf_low s lo c : lowItem s = 64 * lo -> cf s c = if c <? lo then 0%N else gN (chunks s) (c - lo).
Proof.
  intros H. unfold cf. replace (lowItem s / 64) with lo; auto.
  rewrite H, Z.mul_comm, Z.div_mul by lia. auto.
Qed.

Lemma cf_mk lo hi cs c : cf (mkSet (64 * lo) hi cs) c = if c <? lo then 0%N else gN cs (c - lo).
Proof. apply cf_low. reflexivity. Qed.

Lemma lt64_bits c : (c < 2 ^ 64)%N <-> forall n, (64 <= n)%N -> N.testbit c n = false.
Proof.
  split.
  - intros H n Hn. destruct (N.eq_dec c 0) as [->|]; [apply N.bits_0|].
    apply N.bits_above_log2. assert (N.log2 c < 64)%N by (apply N.log2_lt_pow2; lia). lia.
  - intros H. destruct (N.lt_ge_cases c (2 ^ 64)); auto. exfalso.
    assert (c <> 0)%N by (intro; subst; revert H0; vm_compute; auto).
    assert (64 <= N.log2 c)%N by (apply N.log2_le_pow2; lia).
    specialize (H _ H2). rewrite N.bit_log2 in H by auto. discriminate.
Qed.

Lemma lor64 a b : (a < 2 ^ 64 -> b < 2 ^ 64 -> N.lor a b < 2 ^ 64)%N.
Proof. rewrite !lt64_bits. intros A B n Hn. rewrite N.lor_spec, A, B; auto. Qed.
Lemma land64 a b : (a < 2 ^ 64 -> N.land a b < 2 ^ 64)%N.
Proof. rewrite !lt64_bits. intros A n Hn. rewrite N.land_spec, A; auto. Qed.
Lemma ldiff64 a b : (a < 2 ^ 64 -> N.ldiff a b < 2 ^ 64)%N.
Proof. rewrite !lt64_bits. intros A n Hn. rewrite N.ldiff_spec, A; auto. Qed.
Lemma bitMask64 x : (bitMask x < 2 ^ 64)%N.
Proof.
  rewrite lt64_bits. intros n Hn. rewrite bitMask_bit. apply N.eqb_neq.
  pose proof (Z.mod_pos_bound x 64). lia.
Qed.

Lemma mem_ext s t : (forall c, cf s c = cf t c) -> forall x, mem s x = mem t x.
Proof. intros H x. unfold mem. rewrite H. reflexivity. Qed.

Lemma wf_empty : wf emptySet.
Proof.
  exists 0, 0. simpl. repeat split; try lia.
  intros i. unfold g. destruct (Z.to_nat i); reflexivity.
Qed.

Lemma mem_empty x : mem emptySet x = false.
Proof.
  unfold mem, cf. cbn [emptySet lowItem chunks]. unfold g. destruct (_ <? _); [apply N.bits_0|].
  destruct (Z.to_nat _); apply N.bits_0.
Qed.

(** ** allocate *)

Lemma allocate_spec s low high :
  wf s -> low <= high ->
  exists s', allocate s low high = Some s' /\ wf s' /\
    (forall c, cf s' c = cf s c) /\ lowItem s' <= low /\ high < highItem s'.
Proof.
  intros (lo & hi & HL & HH & H0 & HZ & HB) Hlh.
  unfold allocate. rewrite !baseItem_eq. unfold IntSize.
  set (a := low / 64). set (b := high / 64).
  assert (a <= b) by (apply Z.div_le_mono; lia).
  assert (Ha : 64 * a <= low) by (apply Z.mul_div_le; lia).
  assert (Hb : high < 64 * b + 64) by (pose proof (Z.mul_succ_div_gt high 64); unfold b; lia).
  destruct ((lowItem s <=? 64 * a) && (64 * b + 64 <=? highItem s)) eqn:E.
  - apply andb_prop in E as [E1 E2]. apply Z.leb_le in E1, E2.
    exists s. repeat split; auto; try lia. exists lo, hi; repeat split; auto; lia.
  - set (nl := if lowItem s <? 64 * a then lowItem s else 64 * a).
    set (nh := if 64 * b + 64 <? highItem s then highItem s else 64 * b + 64).
    set (l := Z.min lo a). set (h := Z.max hi (b + 1)).
    assert (Enl : nl = 64 * l) by (unfold nl, l; destruct (Z.ltb_spec (lowItem s) (64 * a)); lia).
    assert (Enh : nh = 64 * h) by (unfold nh, h; destruct (Z.ltb_spec (64 * b + 64) (highItem s)); lia).
    rewrite !shiftr6.
    assert (Ecnt : (nh - nl) / 64 = h - l).
    { rewrite Enl, Enh. replace (64 * h - 64 * l) with ((h - l) * 64) by lia. apply Z.div_mul. lia. }
    rewrite Ecnt.
    destruct (zmake 0%N (h - l)) as [cs|] eqn:Ecs; [|rewrite zmake_Some in Ecs by lia; discriminate].
    simpl. pose proof (fun i => g_make _ _ i _ Ecs) as Hcs.
    assert (Hcl : zlen cs = h - l) by apply (Hcs 0).
    assert (exists cs', (if negb (lowItem s =? 0) || negb (highItem s =? 0)
        then zcopy cs ((lowItem s - nl) / 64) (chunks s) else Some cs) = Some cs' /\
        zlen cs' = h - l /\ forall i, 0 <= i -> gN cs' i = if i <? lo - l then 0%N else gN (chunks s) (i - (lo - l))).
    { destruct (negb (lowItem s =? 0) || negb (highItem s =? 0)) eqn:En.
      - assert (Eo : (lowItem s - nl) / 64 = lo - l).
        { rewrite Enl, HL. replace (64 * lo - 64 * l) with ((lo - l) * 64) by lia. apply Z.div_mul. lia. }
        rewrite Eo. destruct (zcopy_total cs (lo - l) (chunks s)) as [cs' Ec']; [lia|].
        exists cs'. split; auto. pose proof (fun i => g_copy 0%N _ _ _ i _ Ec') as Hc'.
        split; [destruct (Hc' 0); lia|]. intros i Hi. destruct (Hc' i) as [_ ->]; auto.
        destruct (Z.ltb_spec i (lo - l)).
        + destruct (Z.leb_spec (lo - l) i); [lia|]. simpl. apply Hcs.
        + destruct (Z.leb_spec (lo - l) i); [|lia]. simpl.
          destruct (Z.ltb_spec i (lo - l + zlen (chunks s))); simpl.
          * destruct (Z.ltb_spec i (zlen cs)); [reflexivity|lia].
          * rewrite (g_over _ (chunks s)) by lia. apply Hcs.
      - exists cs. split; auto. split; auto. intros i Hi.
        apply orb_false_iff in En as [E1 E2].
        apply negb_false_iff in E1, E2. apply Z.eqb_eq in E1, E2.
        rewrite (proj2 (Hcs i)). destruct (Z.ltb_spec i (lo - l)); auto. rewrite g_over; auto. lia. }
    destruct H1 as (cs' & -> & HL' & HG'). simpl.
    eexists; split; [reflexivity|]. repeat split.
    + exists l, h. simpl. repeat split; auto; try lia.
      intros i. destruct (Z_lt_le_dec i 0).
      * unfold g. replace (Z.to_nat i) with (Z.to_nat 0) by lia.
        change (gN cs' 0 < 2 ^ 64)%N. rewrite HG' by lia.
        destruct (0 <? lo - l); [reflexivity|apply HB].
      * rewrite HG' by lia. destruct (i <? lo - l); [reflexivity|apply HB].
    + intros c. rewrite (cf_low _ l) by (simpl; auto). rewrite (cf_low s lo) by auto. simpl.
      destruct (Z.ltb_spec c l); destruct (Z.ltb_spec c lo); try lia; auto.
      * rewrite HG' by lia. destruct (Z.ltb_spec (c - l) (lo - l)); [auto|lia].
      * rewrite HG' by lia. destruct (Z.ltb_spec (c - l) (lo - l)); [lia|]. f_equal. lia.
    + simpl. lia.
    + simpl. lia.
Qed.

Lemma allocate_empty a b :
  a <= 0 <= b -> a < b ->
  exists cs, allocate emptySet (64 * a) (64 * b - 1) = Some (mkSet (64 * a) (64 * b) cs) /\
    zlen cs = b - a /\ forall i, gN cs i = 0%N.
Proof.
  intros H1 H2. unfold allocate. rewrite !baseItem_eq. unfold IntSize. cbn [lowItem highItem emptySet].
  replace ((64 * a) / 64) with a by (rewrite Z.mul_comm, Z.div_mul; lia).
  replace ((64 * b - 1) / 64) with (b - 1) by (apply Z.div_unique with 63; lia).
  destruct ((0 <=? 64 * a) && (64 * (b - 1) + 64 <=? 0)) eqn:E.
  { apply andb_prop in E as [E1 E2]. apply Z.leb_le in E1, E2. lia. }
  destruct (Z.ltb_spec 0 (64 * a)); [lia|].
  destruct (Z.ltb_spec (64 * (b - 1) + 64) 0); [lia|].
  rewrite !shiftr6.
  replace ((64 * (b - 1) + 64 - 64 * a) / 64) with (b - a)
    by (apply Z.div_unique with 0; lia).
  destruct (zmake 0%N (b - a)) as [cs|] eqn:Ecs; [|rewrite zmake_Some in Ecs by lia; discriminate].
  cbn [obind]. exists cs. split.
  { change (0 =? 0) with true. cbn [negb orb obind]. replace (64 * (b - 1) + 64) with (64 * b) by lia. reflexivity. }
  split; [apply (g_make _ _ 0 _ Ecs)|]. intros i. apply (g_make _ _ i _ Ecs).
Qed.

(** ** single items *)

Lemma div_range s x lo hi :
  lowItem s = 64 * lo -> highItem s = 64 * hi -> lowItem s <= x < highItem s -> lo <= x / 64 < hi.
Proof.
  intros -> -> H. split.
  - apply Z.div_le_lower_bound; lia.
  - apply Z.div_lt_upper_bound; lia.
Qed.

Lemma chunkIndex_eq s lo x : lowItem s = 64 * lo -> chunkIndex s x = x / 64 - lo.
Proof.
  intros H. unfold chunkIndex. rewrite shiftr6, H.
  replace (x - 64 * lo) with (x + (- lo) * 64) by lia. rewrite Z.div_add by lia. lia.
Qed.

Lemma divmod_eq x y : x / 64 = y / 64 -> Z.to_N (x mod 64) = Z.to_N (y mod 64) -> x = y.
Proof.
  intros H1 H2. pose proof (Z.div_mod x 64). pose proof (Z.div_mod y 64).
  pose proof (Z.mod_pos_bound x 64). pose proof (Z.mod_pos_bound y 64). lia.
Qed.

Lemma doSet_spec s x inv :
  wf s -> lowItem s <= x < highItem s ->
  exists s', doSet s x inv = Some s' /\ wf s' /\ lowItem s' = lowItem s /\ highItem s' = highItem s /\
    forall y, mem s' y = if y =? x then negb inv else mem s y.
Proof.
  intros (lo & hi & HL & HH & H0 & HZ & HB) Hx.
  pose proof (div_range _ _ _ _ HL HH Hx).
  unfold doSet. rewrite (chunkIndex_eq _ lo) by auto.
  rewrite (zget_Some _ _ 0%N) by lia. simpl. rewrite zset_Some by lia. simpl.
  fold (gN (chunks s) (x / 64 - lo)).
  set (c' := if inv then _ else _).
  assert (Hc' : (c' < 2 ^ 64)%N).
  { unfold c'. destruct inv; [apply ldiff64, HB|apply lor64; [apply HB|apply bitMask64]]. }
  eexists; split; [reflexivity|]. repeat split; auto.
  - exists lo, hi. simpl. rewrite zlen_upd. repeat split; auto; try lia.
    intros i. destruct (Z_lt_le_dec i 0).
    + unfold g. replace (Z.to_nat i) with (Z.to_nat 0) by lia.
      change (gN (upd (chunks s) (Z.to_nat (x / 64 - lo)) c') 0 < 2 ^ 64)%N.
      rewrite g_upd by lia. destruct (_ =? _); auto.
    + rewrite g_upd by lia. destruct (_ =? _); auto.
  - intros y. unfold mem. rewrite (cf_low _ lo) by (simpl; auto). rewrite (cf_low s lo) by auto. simpl.
    destruct (Z.ltb_spec (y / 64) lo).
    + destruct (Z.eqb_spec y x); auto. subst. lia.
    + rewrite g_upd by lia. destruct (Z.eqb_spec (y / 64 - lo) (x / 64 - lo)).
      * assert (E : y / 64 = x / 64) by lia. rewrite E. unfold c'.
        destruct inv; rewrite ?N.ldiff_spec, ?N.lor_spec, bitMask_bit;
        destruct (N.eqb_spec (Z.to_N (y mod 64)) (Z.to_N (x mod 64))).
        -- rewrite (divmod_eq y x) by auto. rewrite Z.eqb_refl. rewrite andb_false_r. reflexivity.
        -- destruct (Z.eqb_spec y x); [subst; congruence|]. rewrite andb_true_r. reflexivity.
        -- rewrite (divmod_eq y x) by auto. rewrite Z.eqb_refl. rewrite orb_true_r. reflexivity.
        -- destruct (Z.eqb_spec y x); [subst; congruence|]. rewrite orb_false_r. reflexivity.
      * destruct (Z.eqb_spec y x); [subst; lia|reflexivity].
Qed.

Definition inb (x : Z) (l : list Z) : bool := existsb (Z.eqb x) l.

Lemma doSetAll_spec items inv : forall s,
  wf s -> (forall x, In x items -> lowItem s <= x < highItem s) ->
  exists s', doSetAll s items inv = Some s' /\ wf s' /\
    forall y, mem s' y = if inb y items then negb inv else mem s y.
Proof.
  induction items as [|i r IH]; intros s HW HI; simpl.
  - eauto.
  - destruct (doSet_spec s i inv HW) as (s1 & E1 & W1 & L1 & H1 & M1); [apply HI; simpl; auto|].
    rewrite E1. simpl. destruct (IH s1 W1) as (s2 & E2 & W2 & M2).
    { intros x Hx. rewrite L1, H1. apply HI. simpl; auto. }
    exists s2. split; auto. split; auto. intros y. rewrite M2, M1.
    unfold inb. simpl. destruct (existsb (Z.eqb y) r); destruct (Z.eqb_spec y i); auto.
Qed.

Lemma minMax_spec x rest mn mx :
  minMax x rest = (mn, mx) -> mn <= mx /\ forall y, In y (x :: rest) -> mn <= y <= mx.
Proof.
  unfold minMax.
  assert (G : forall rest a b, a <= b ->
    let '(mn, mx) := fold_left (fun '(mn, mx) item =>
               (if item <? mn then item else mn, if mx <? item then item else mx)) rest (a, b) in
    mn <= a /\ b <= mx /\ forall y, In y rest -> mn <= y <= mx).
  { clear. induction rest as [|i r IH]; intros a b Hab; simpl.
    - repeat split; try lia; destruct H.
    - specialize (IH (if i <? a then i else a) (if b <? i then i else b)).
      destruct (fold_left _ r _) as [mn mx].
      destruct (Z.ltb_spec i a); destruct (Z.ltb_spec b i);
      (destruct IH as (A & B & C); [lia|]; repeat split; try lia;
       destruct H1 as [<-|H1]; try lia; specialize (C _ H1); lia). }
  intros H. specialize (G rest x x ltac:(lia)). rewrite H in G.
  destruct G as (A & B & C). split; [lia|]. intros y [<-|Hy]; [lia|auto].
Qed.

Lemma addRemove_spec s items inv :
  wf s -> exists s', addRemove s items inv = Some s' /\ wf s' /\
    forall y, mem s' y = if inb y items then negb inv else mem s y.
Proof.
  intros HW. unfold addRemove. destruct items as [|x rest].
  - exists s. simpl. auto.
  - destruct (minMax x rest) as [mn mx] eqn:E. apply minMax_spec in E as [E1 E2].
    destruct (allocate_spec s mn mx HW E1) as (s1 & -> & W1 & C1 & L1 & H1). cbn [obind].
    destruct (doSetAll_spec (x :: rest) inv s1 W1) as (s2 & E3 & W2 & M2).
    { intros y Hy. specialize (E2 y Hy). lia. }
    exists s2. split; auto. split; auto. intros y. rewrite M2.
    rewrite (mem_ext s1 s C1). reflexivity.
Qed.

Lemma newSet_spec items : exists s, newSet items = Some s /\ wf s /\ forall y, mem s y = inb y items.
Proof.
  destruct (addRemove_spec emptySet items false wf_empty) as (s & E & W & M).
  exists s. split; auto. split; auto. intros y. rewrite M, mem_empty. destruct (inb y items); auto.
Qed.

Lemma mem_outside s x : wf s -> x < lowItem s \/ highItem s <= x -> mem s x = false.
Proof.
  intros (lo & hi & HL & HH & H0 & HZ & HB) H. unfold mem. rewrite (cf_low s lo) by auto.
  destruct (Z.ltb_spec (x / 64) lo); [apply N.bits_0|].
  rewrite g_over; [apply N.bits_0|].
  assert (lo <= x / 64) by lia.
  assert (64 * lo <= x) by (pose proof (Z.mul_div_le x 64); lia).
  assert (hi <= x / 64) by (apply Z.div_le_lower_bound; lia). lia.
Qed.

Lemma contains_spec s x : wf s -> setContains s x = Some (mem s x).
Proof.
  intros HW. unfold setContains.
  destruct (Z.ltb_spec x (lowItem s)); [simpl; rewrite mem_outside; auto|].
  destruct (Z.leb_spec (highItem s) x); [simpl; rewrite mem_outside; auto|].
  simpl. destruct HW as (lo & hi & HL & HH & H0' & HZ & HB).
  pose proof (div_range s x lo hi HL HH ltac:(lia)).
  rewrite (chunkIndex_eq _ lo) by auto. rewrite (zget_Some _ _ 0%N) by lia. simpl.
  f_equal. unfold mem. rewrite (cf_low s lo) by auto. destruct (Z.ltb_spec (x / 64) lo); [lia|].
  fold (gN (chunks s) (x / 64 - lo)). set (c := gN _ _).
  destruct (N.eqb_spec (N.land c (bitMask x)) 0).
  - simpl. symmetry. assert (E : N.testbit (N.land c (bitMask x)) (Z.to_N (x mod 64)) = false)
      by (rewrite e; apply N.bits_0).
    rewrite N.land_spec, bitMask_bit, N.eqb_refl, andb_true_r in E. exact E.
  - simpl. destruct (N.testbit c (Z.to_N (x mod 64))) eqn:E; auto. exfalso. apply n.
    apply N.bits_inj. intros m. rewrite N.land_spec, bitMask_bit, N.bits_0.
    destruct (N.eqb_spec m (Z.to_N (x mod 64))); [subst; rewrite E; auto|apply andb_false_r].
Qed.

(** ** binary operations, on chunk functions *)

Lemma orLoop_spec src : forall dst offset,
  0 <= offset -> offset + zlen src <= zlen dst ->
  exists r, orLoop dst offset src = Some r /\ zlen r = zlen dst /\
    forall i, 0 <= i -> gN r i = if (offset <=? i) && (i <? offset + zlen src)
                       then N.lor (gN dst i) (gN src (i - offset)) else gN dst i.
Proof.
  induction src as [|c r IH]; intros dst offset Ho Hl.
  - exists dst. split; auto. split; auto. intros i Hi. change (zlen (@nil N)) with 0.
    destruct (Z.leb_spec offset i); destruct (Z.ltb_spec i (offset + 0)); auto; lia.
  - rewrite zlen_cons in *. pose proof (zlen_nonneg r). cbn [orLoop].
    rewrite (zget_Some _ _ 0%N) by lia. cbn [obind]. rewrite zset_Some by lia. cbn [obind].
    fold (gN dst offset).
    destruct (IH (upd dst (Z.to_nat offset) (N.lor (gN dst offset) c)) (offset + 1)) as (r' & E & L & G);
      [lia|rewrite zlen_upd; lia|].
    exists r'. split; auto. rewrite zlen_upd in L. split; auto.
    intros i Hi. rewrite G by auto. rewrite g_upd by lia.
    destruct (Z.leb_spec (offset + 1) i); destruct (Z.ltb_spec i (offset + 1 + zlen r));
    destruct (Z.leb_spec offset i); destruct (Z.ltb_spec i (offset + (zlen r + 1))); try lia; simpl;
    destruct (Z.eqb_spec i offset); try lia; auto.
    + rewrite g_cons by lia. destruct (Z.eqb_spec (i - offset) 0); [lia|]. do 2 f_equal. lia.
    + subst. rewrite g_cons by lia. rewrite Z.sub_diag. reflexivity.
Qed.

Lemma andLoop_spec n : forall dst i src offset,
  0 <= i -> i + Z.of_nat n <= zlen dst -> 0 <= offset -> offset + Z.of_nat n <= zlen src ->
  exists r, andLoop n dst i src offset = Some r /\ zlen r = zlen dst /\
    forall j, 0 <= j -> gN r j = if (i <=? j) && (j <? i + Z.of_nat n)
                       then N.land (gN dst j) (gN src (j - i + offset)) else gN dst j.
Proof.
  induction n as [|n IH]; intros dst i src offset Hi Hd Ho Hs.
  - exists dst. split; auto. split; auto. intros j Hj. simpl.
    destruct (Z.leb_spec i j); destruct (Z.ltb_spec j (i + 0)); auto; lia.
  - cbn [andLoop].
    rewrite (zget_Some _ _ 0%N) by lia. cbn [obind]. rewrite (zget_Some _ _ 0%N) by lia. cbn [obind].
    rewrite zset_Some by lia. cbn [obind]. fold (gN dst i). fold (gN src offset).
    destruct (IH (upd dst (Z.to_nat i) (N.land (gN dst i) (gN src offset))) (i + 1) src (offset + 1))
      as (r' & E & L & G); try lia; [rewrite zlen_upd; lia|].
    exists r'. split; auto. rewrite zlen_upd in L. split; auto.
    intros j Hj. rewrite G by auto. rewrite g_upd by lia.
    destruct (Z.leb_spec (i + 1) j); destruct (Z.ltb_spec j (i + 1 + Z.of_nat n));
    destruct (Z.leb_spec i j); destruct (Z.ltb_spec j (i + Z.of_nat (S n))); try lia; simpl;
    destruct (Z.eqb_spec j i); try lia; auto.
    + do 2 f_equal. lia.
    + subst. do 2 f_equal. lia.
Qed.

Lemma diffLoop_spec n : forall dst i src offset,
  0 <= i -> i + Z.of_nat n <= zlen dst -> 0 <= offset -> offset + Z.of_nat n <= zlen src ->
  exists r, diffLoop n dst i src offset = Some r /\ zlen r = zlen dst /\
    forall j, 0 <= j -> gN r j = if (i <=? j) && (j <? i + Z.of_nat n)
                       then N.ldiff (gN dst j) (gN src (j - i + offset)) else gN dst j.
Proof.
  induction n as [|n IH]; intros dst i src offset Hi Hd Ho Hs.
  - exists dst. split; auto. split; auto. intros j Hj. simpl.
    destruct (Z.leb_spec i j); destruct (Z.ltb_spec j (i + 0)); auto; lia.
  - cbn [diffLoop].
    rewrite (zget_Some _ _ 0%N) by lia. cbn [obind]. rewrite (zget_Some _ _ 0%N) by lia. cbn [obind].
    rewrite zset_Some by lia. cbn [obind]. fold (gN dst i). fold (gN src offset).
    destruct (IH (upd dst (Z.to_nat i) (N.ldiff (gN dst i) (gN src offset))) (i + 1) src (offset + 1))
      as (r' & E & L & G); try lia; [rewrite zlen_upd; lia|].
    exists r'. split; auto. rewrite zlen_upd in L. split; auto.
    intros j Hj. rewrite G by auto. rewrite g_upd by lia.
    destruct (Z.leb_spec (i + 1) j); destruct (Z.ltb_spec j (i + 1 + Z.of_nat n));
    destruct (Z.leb_spec i j); destruct (Z.ltb_spec j (i + Z.of_nat (S n))); try lia; simpl;
    destruct (Z.eqb_spec j i); try lia; auto.
    + do 2 f_equal. lia.
    + subst. do 2 f_equal. lia.
Qed.

Lemma g_neg (l : list N) i : i < 0 -> gN l i = gN l 0.
Proof. intros. unfold g. f_equal. lia. Qed.

Lemma bound_from_nonneg (l : list N) :
  (forall i, 0 <= i -> (gN l i < 2 ^ 64)%N) -> forall i, (gN l i < 2 ^ 64)%N.
Proof. intros H i. destruct (Z_lt_le_dec i 0); [rewrite g_neg by auto|]; apply H; lia. Qed.

Lemma div64 a : 64 * a / 64 = a.
Proof. rewrite Z.mul_comm, Z.div_mul; lia. Qed.

Lemma div64s a b : (64 * a - 64 * b) / 64 = a - b.
Proof. replace (64 * a - 64 * b) with ((a - b) * 64) by lia. apply Z.div_mul; lia. Qed.

Lemma union_spec s t : wf s -> wf t ->
  exists r, setUnion s t = Some r /\ wf r /\ forall y, mem r y = mem s y || mem t y.
Proof.
  intros (ls & hs & HLs & HHs & H0s & HZs & HBs) (lt & ht & HLt & HHt & H0t & HZt & HBt).
  unfold setUnion.
  set (low := if lowItem s <? lowItem t then _ else _).
  set (high := if highItem t <? highItem s then _ else _).
  assert (El : low = 64 * Z.min ls lt) by (unfold low; destruct (Z.ltb_spec (lowItem s) (lowItem t)); lia).
  assert (Eh : high = 64 * Z.max hs ht) by (unfold high; destruct (Z.ltb_spec (highItem t) (highItem s)); lia).
  clearbody low high. subst low high. set (a := Z.min ls lt) in *. set (b := Z.max hs ht) in *.
  destruct (Z.eqb_spec (64 * a) (64 * b)).
  - exists emptySet. split; auto. split; [apply wf_empty|]. intros y. rewrite mem_empty.
    rewrite !mem_outside; auto.
    + exists lt, ht; repeat split; auto; lia.
    + rewrite HLt, HHt. lia.
    + exists ls, hs; repeat split; auto; lia.
    + rewrite HLs, HHs. lia.
  - destruct (allocate_empty a b) as (cs & -> & Lc & Gc); [lia|lia|]. cbn [obind chunks lowItem highItem].
    rewrite !shiftr6. rewrite HLs, HLt, !div64s.
    destruct (zcopy_total cs (ls - a) (chunks s)) as [c1 E1]; [lia|]. rewrite E1. cbn [obind].
    pose proof (fun i => g_copy 0%N _ _ _ i _ E1) as G1.
    assert (L1 : zlen c1 = b - a) by (destruct (G1 0); lia).
    destruct (orLoop_spec (chunks t) c1 (lt - a)) as (c2 & -> & L2 & G2); [lia|lia|]. cbn [obind].
    eexists; split; [reflexivity|].
    assert (GG : forall i, 0 <= i -> gN c2 i =
       N.lor (if i <? ls - a then 0%N else gN (chunks s) (i - (ls - a)))
             (if i <? lt - a then 0%N else gN (chunks t) (i - (lt - a)))).
    { intros i Hi. rewrite G2 by auto. destruct (G1 i) as [_ ->]; auto. rewrite Gc.
      destruct (Z.ltb_spec i (ls - a)); destruct (Z.leb_spec (ls - a) i); try lia; cbn [andb].
      - destruct (Z.ltb_spec i (lt - a)); destruct (Z.leb_spec (lt - a) i); try lia; cbn [andb]; auto.
        destruct (Z.ltb_spec i (lt - a + zlen (chunks t))); auto.
        rewrite (g_over _ (chunks t)) by lia. reflexivity.
      - assert (Ex : (if (i <? ls - a + zlen (chunks s)) && (i <? zlen cs) then gN (chunks s) (i - (ls - a)) else 0%N)
                  = gN (chunks s) (i - (ls - a))).
        { destruct (Z.ltb_spec i (ls - a + zlen (chunks s))); cbn [andb].
          - destruct (Z.ltb_spec i (zlen cs)); [auto|lia].
          - rewrite g_over; auto; lia. }
        rewrite Ex.
        destruct (Z.ltb_spec i (lt - a)); destruct (Z.leb_spec (lt - a) i); try lia; cbn [andb].
        + rewrite N.lor_0_r. auto.
        + destruct (Z.ltb_spec i (lt - a + zlen (chunks t))); auto.
          rewrite (g_over _ (chunks t)) by lia. rewrite N.lor_0_r; auto. }
    split.
    + exists a, b. cbn [lowItem highItem chunks]. repeat split; try lia. apply bound_from_nonneg. intros i Hi. rewrite GG by auto.
      apply lor64.
      * destruct (i <? ls - a); [reflexivity|apply HBs].
      * destruct (i <? lt - a); [reflexivity|apply HBt].
    + intros y. unfold mem. rewrite cf_mk, (cf_low s ls), (cf_low t lt) by auto.
      destruct (Z.ltb_spec (y / 64) a).
      * destruct (Z.ltb_spec (y / 64) ls); [|lia]. destruct (Z.ltb_spec (y / 64) lt); [|lia].
        rewrite !N.bits_0. reflexivity.
      * rewrite GG, N.lor_spec by lia. f_equal.
        -- destruct (Z.ltb_spec (y / 64 - a) (ls - a)); destruct (Z.ltb_spec (y / 64) ls); try lia; auto.
           do 2 f_equal; lia.
        -- destruct (Z.ltb_spec (y / 64 - a) (lt - a)); destruct (Z.ltb_spec (y / 64) lt); try lia; auto.
           do 2 f_equal; lia.
Qed.

Lemma intersect_spec s t : wf s -> wf t ->
  exists r, setIntersect s t = Some r /\ wf r /\ forall y, mem r y = mem s y && mem t y.
Proof.
  intros (ls & hs & HLs & HHs & H0s & HZs & HBs) (lt & ht & HLt & HHt & H0t & HZt & HBt).
  unfold setIntersect.
  set (low := if lowItem t <? lowItem s then _ else _).
  set (high := if highItem s <? highItem t then _ else _).
  assert (El : low = 64 * Z.max ls lt) by (unfold low; destruct (Z.ltb_spec (lowItem t) (lowItem s)); lia).
  assert (Eh : high = 64 * Z.min hs ht) by (unfold high; destruct (Z.ltb_spec (highItem s) (highItem t)); lia).
  clearbody low high. subst low high. set (a := Z.max ls lt) in *. set (b := Z.min hs ht) in *.
  assert (Ws : wf s) by (exists ls, hs; repeat split; auto; lia).
  assert (Wt : wf t) by (exists lt, ht; repeat split; auto; lia).
  assert (Hout : forall y, y / 64 < a \/ b <= y / 64 -> mem s y && mem t y = false).
  { intros y Hy. apply andb_false_iff.
    assert (Hd : forall c, c <= y / 64 -> 64 * c <= y) by (intros; pose proof (Z.mul_div_le y 64); lia).
    assert (Hd' : forall c, y / 64 < c -> y < 64 * c).
    { intros. pose proof (Z.mul_succ_div_gt y 64). lia. }
    destruct Hy as [Hy|Hy].
    - apply Hd' in Hy. unfold a in Hy. destruct (Z.max_spec ls lt) as [[? E]|[? E]]; rewrite E in Hy.
      + right. apply mem_outside; auto. left. lia.
      + left. apply mem_outside; auto. left. lia.
    - apply Hd in Hy. unfold b in Hy. destruct (Z.min_spec hs ht) as [[? E]|[? E]]; rewrite E in Hy.
      + left. apply mem_outside; auto. right. lia.
      + right. apply mem_outside; auto. right. lia. }
  destruct (Z.eqb_spec (64 * a) (64 * b)).
  - exists emptySet. split; auto. split; [apply wf_empty|]. intros y. rewrite mem_empty. symmetry.
    apply Hout. lia.
  - destruct (allocate_empty a b) as (cs & -> & Lc & Gc); [lia|lia|]. cbn [obind chunks lowItem highItem].
    rewrite !shiftr6. rewrite HLs, HLt, !div64s.
    destruct (zslice (chunks s) (a - ls) (zlen (chunks s))) as [sl|] eqn:Esl.
    2:{ rewrite zslice_Some in Esl; [discriminate|lia|lia]. }
    cbn [obind]. pose proof (fun i => g_slice 0%N _ _ _ i _ Esl) as Gsl.
    destruct (zcopy_total cs 0 sl) as [c1 E1]; [pose proof (zlen_nonneg cs); lia|]. rewrite E1. cbn [obind].
    pose proof (fun i => g_copy 0%N _ _ _ i _ E1) as G1.
    assert (L1 : zlen c1 = b - a) by (destruct (G1 0); lia).
    destruct (andLoop_spec (length c1) c1 0 (chunks t) (a - lt)) as (c2 & -> & L2 & G2);
      [lia|unfold zlen; lia|lia|unfold zlen in *; lia|]. cbn [obind].
    eexists; split; [reflexivity|].
    assert (GG : forall i, 0 <= i < b - a -> gN c2 i = N.land (gN (chunks s) (i + (a - ls))) (gN (chunks t) (i + (a - lt)))).
    { intros i Hi. rewrite G2 by lia.
      destruct (Z.leb_spec 0 i); [|lia]. fold (zlen c1).
      change (Z.of_nat (length c1)) with (zlen c1). destruct (Z.ltb_spec i (0 + zlen c1)); [|lia]. cbn [andb].
      f_equal; [|f_equal; lia].
      destruct (G1 i) as [_ ->]; [lia|]. destruct (Gsl i) as [Gn _]; [lia|]. rewrite Gn.
      destruct (Z.leb_spec 0 i); [|lia]. destruct (Z.ltb_spec i (0 + (zlen (chunks s) - (a - ls)))); [|lia].
      destruct (Z.ltb_spec i (zlen cs)); [|lia]. cbn [andb].
      destruct (Gsl (i - 0)) as [_ ->]; [lia|].
      destruct (Z.ltb_spec (i - 0) (zlen (chunks s) - (a - ls))); [|lia]. f_equal. lia. }
    split.
    + exists a, b. cbn [lowItem highItem chunks]. repeat split; try lia. apply bound_from_nonneg. intros i Hi.
      destruct (Z_lt_le_dec i (b - a)).
      * rewrite GG by lia. apply land64, HBs.
      * rewrite g_over by lia. reflexivity.
    + intros y. destruct (Z_lt_le_dec (y / 64) a); [|destruct (Z_lt_le_dec (y / 64) b)].
      * rewrite Hout by auto. unfold mem. rewrite cf_mk. destruct (Z.ltb_spec (y / 64) a); [apply N.bits_0|lia].
      * unfold mem. rewrite cf_mk, (cf_low s ls), (cf_low t lt) by auto.
        destruct (Z.ltb_spec (y / 64) a); [lia|]. destruct (Z.ltb_spec (y / 64) ls); [lia|].
        destruct (Z.ltb_spec (y / 64) lt); [lia|]. rewrite GG by lia. rewrite N.land_spec.
        f_equal; do 2 f_equal; lia.
      * rewrite Hout by auto. unfold mem. rewrite cf_mk. destruct (Z.ltb_spec (y / 64) a); [apply N.bits_0|].
        rewrite g_over by lia. apply N.bits_0.
Qed.

Lemma subtract_spec s t : wf s -> wf t ->
  exists r, setSubtract s t = Some r /\ wf r /\ forall y, mem r y = mem s y && negb (mem t y).
Proof.
  intros (ls & hs & HLs & HHs & H0s & HZs & HBs) (lt & ht & HLt & HHt & H0t & HZt & HBt).
  unfold setSubtract.
  set (low := if lowItem t <? lowItem s then _ else _).
  set (high := if highItem s <? highItem t then _ else _).
  assert (El : low = 64 * Z.max ls lt) by (unfold low; destruct (Z.ltb_spec (lowItem t) (lowItem s)); lia).
  assert (Eh : high = 64 * Z.min hs ht) by (unfold high; destruct (Z.ltb_spec (highItem s) (highItem t)); lia).
  clearbody low high. subst low high. set (a := Z.max ls lt) in *. set (b := Z.min hs ht) in *.
  assert (Ws : wf s) by (exists ls, hs; repeat split; auto; lia).
  assert (Wt : wf t) by (exists lt, ht; repeat split; auto; lia).
  assert (Hout : forall y, y / 64 < a \/ b <= y / 64 -> mem s y && negb (mem t y) = mem s y).
  { intros y Hy.
    assert (Hd : forall c, c <= y / 64 -> 64 * c <= y) by (intros; pose proof (Z.mul_div_le y 64); lia).
    assert (Hd' : forall c, y / 64 < c -> y < 64 * c).
    { intros. pose proof (Z.mul_succ_div_gt y 64). lia. }
    assert (mem s y = false \/ mem t y = false) as [E|E].
    { destruct Hy as [Hy|Hy].
    - apply Hd' in Hy. unfold a in Hy. destruct (Z.max_spec ls lt) as [[? E]|[? E]]; rewrite E in Hy.
      + right. apply mem_outside; auto. left. lia.
      + left. apply mem_outside; auto. left. lia.
    - apply Hd in Hy. unfold b in Hy. destruct (Z.min_spec hs ht) as [[? E]|[? E]]; rewrite E in Hy.
      + left. apply mem_outside; auto. right. lia.
      + right. apply mem_outside; auto. right. lia. }
    - rewrite E. reflexivity.
    - rewrite E. apply andb_true_r. }
  destruct (Z.eqb_spec (64 * a) (64 * b)).
  - exists (setCopy s). split; auto. split; [exists ls, hs; cbn; repeat split; auto; lia|].
    intros y. rewrite Hout by lia. reflexivity.
  - rewrite !shiftr6. rewrite HLs, HLt, !div64s. cbn [setCopy chunks].
    replace (a - ls + (b - a) - (a - ls)) with (b - a) by lia.
    destruct (diffLoop_spec (Z.to_nat (b - a)) (chunks s) (a - ls) (chunks t) (a - lt)) as (c & -> & L & G);
      try lia. cbn [obind]. eexists; split; [reflexivity|].
    rewrite Z2Nat.id in G by lia.
    split.
    + exists ls, hs. cbn [lowItem highItem chunks]. repeat split; try lia. apply bound_from_nonneg. intros i Hi. rewrite G by auto.
      destruct (_ && _); [apply ldiff64|]; apply HBs.
    + intros y. destruct (Z_lt_le_dec (y / 64) ls).
      * rewrite Hout by lia. unfold mem. rewrite cf_mk, (cf_low s ls) by auto.
        destruct (Z.ltb_spec (y / 64) ls); [reflexivity|lia].
      * destruct (Z_lt_le_dec (y / 64) a); [|destruct (Z_lt_le_dec (y / 64) b)].
        -- rewrite Hout by auto. unfold mem. rewrite cf_mk, (cf_low s ls) by auto.
           destruct (Z.ltb_spec (y / 64) ls); [lia|]. rewrite G by lia.
           destruct (Z.leb_spec (a - ls) (y / 64 - ls)); [lia|]. reflexivity.
        -- unfold mem. rewrite cf_mk, (cf_low s ls), (cf_low t lt) by auto.
           destruct (Z.ltb_spec (y / 64) ls); [lia|]. destruct (Z.ltb_spec (y / 64) lt); [lia|].
           rewrite G by lia.
           destruct (Z.leb_spec (a - ls) (y / 64 - ls)); [|lia].
           destruct (Z.ltb_spec (y / 64 - ls) (a - ls + (b - a))); [|lia]. cbn [andb].
           rewrite N.ldiff_spec. do 4 f_equal. lia.
        -- rewrite Hout by auto. unfold mem. rewrite cf_mk, (cf_low s ls) by auto.
           destruct (Z.ltb_spec (y / 64) ls); [lia|]. rewrite G by lia.
           destruct (Z.ltb_spec (y / 64 - ls) (a - ls + (b - a))); [lia|]. rewrite andb_false_r. reflexivity.
Qed.

(** ** emptiness and equality *)

Lemma isEmptyChunks_g cs : isEmptyChunks cs = true <-> forall i, 0 <= i < zlen cs -> gN cs i = 0%N.
Proof.
  unfold isEmptyChunks. rewrite forallb_forall. split.
  - intros H i Hi. apply N.eqb_eq. apply H. unfold g. apply nth_In. unfold zlen in Hi. lia.
  - intros H x Hx. apply N.eqb_eq. apply (In_nth _ _ 0%N) in Hx as (n & Hn & <-).
    specialize (H (Z.of_nat n)). unfold g in H. rewrite Nat2Z.id in H. apply H. unfold zlen. lia.
Qed.

Lemma bit_item c n : (n < 64)%N -> (64 * c + Z.of_N n) / 64 = c /\ Z.to_N ((64 * c + Z.of_N n) mod 64) = n.
Proof.
  intros H. assert (E : (64 * c + Z.of_N n) / 64 = c) by (symmetry; apply Z.div_unique with (Z.of_N n); lia).
  assert (E2 : (64 * c + Z.of_N n) mod 64 = Z.of_N n) by (symmetry; apply Z.mod_unique with c; lia).
  rewrite E, E2. split; auto. lia.
Qed.

Lemma cf64 s c : wf s -> (cf s c < 2 ^ 64)%N.
Proof. intros (lo & hi & HL & HH & H0 & HZ & HB). unfold cf. destruct (_ <? _); [reflexivity|apply HB]. Qed.

(** equal members <-> equal chunk functions *)
Lemma mem_cf s t : wf s -> wf t -> ((forall x, mem s x = mem t x) <-> (forall c, cf s c = cf t c)).
Proof.
  intros Ws Wt. split; [|apply mem_ext].
  intros H c. apply N.bits_inj. intros n.
  destruct (N.lt_ge_cases n 64).
  - specialize (H (64 * c + Z.of_N n)). unfold mem in H.
    destruct (bit_item c n) as [E1 E2]; auto. rewrite E1, E2 in H. exact H.
  - rewrite (proj1 (lt64_bits _) (cf64 s c Ws)) by auto.
    rewrite (proj1 (lt64_bits _) (cf64 t c Wt)) by auto. reflexivity.
Qed.

Lemma cf_empty c : cf emptySet c = 0%N.
Proof. unfold cf. destruct (_ <? _); auto. unfold g. destruct (Z.to_nat _); reflexivity. Qed.

Lemma isEmpty_spec s : wf s -> (setIsEmpty s = true <-> forall x, mem s x = false).
Proof.
  intros HW. transitivity (forall x, mem s x = mem emptySet x).
  2:{ split; intros H x; specialize (H x); pose proof (mem_empty x); congruence. }
  rewrite (mem_cf s emptySet HW wf_empty).
  unfold setIsEmpty. rewrite isEmptyChunks_g.
  destruct HW as (lo & hi & HL & HH & H0 & HZ & HB). split.
  - intros H c. rewrite cf_empty, (cf_low s lo) by auto. destruct (Z.ltb_spec c lo); auto.
    destruct (Z_lt_le_dec (c - lo) (zlen (chunks s))); [apply H; lia|apply g_over; lia].
  - intros H i Hi. specialize (H (i + lo)). rewrite cf_empty, (cf_low s lo) in H by auto.
    destruct (Z.ltb_spec (i + lo) lo); [lia|]. replace (i + lo - lo) with i in H by lia. exact H.
Qed.

Lemma eqLoop_spec n : forall cs ct i o,
  0 <= i -> i + Z.of_nat n <= zlen cs -> 0 <= o -> o + Z.of_nat n <= zlen ct ->
  exists b, eqLoop n cs ct i o = Some b /\
   (b = true <-> forall j, 0 <= j < Z.of_nat n -> gN cs (i + j) = gN ct (o + j)).
Proof.
  induction n as [|n IH]; intros cs ct i o Hi Hci Ho Hco.
  - exists true. split; auto. split; auto. intros _ j Hj. lia.
  - cbn [eqLoop]. rewrite (zget_Some _ _ 0%N) by lia. cbn [obind]. rewrite (zget_Some _ _ 0%N) by lia. cbn [obind].
    fold (gN cs i). fold (gN ct o). destruct (N.eqb_spec (gN cs i) (gN ct o)).
    + destruct (IH cs ct (i + 1) (o + 1)) as (b & E & H); try lia. exists b. split; auto. rewrite H. split.
      * intros G j Hj. destruct (Z.eq_dec j 0); [subst; rewrite !Z.add_0_r; auto|].
        specialize (G (j - 1)). replace (i + 1 + (j - 1)) with (i + j) in G by lia.
        replace (o + 1 + (j - 1)) with (o + j) in G by lia. apply G; lia.
      * intros G j Hj. specialize (G (j + 1)). replace (i + (j + 1)) with (i + 1 + j) in G by lia.
        replace (o + (j + 1)) with (o + 1 + j) in G by lia. apply G; lia.
    + exists false. split; auto. split; [discriminate|]. intros G. exfalso. apply n0.
      specialize (G 0). rewrite !Z.add_0_r in G. apply G. lia.
Qed.

Lemma slice_empty cs a b p : zslice cs a b = Some p ->
  (isEmptyChunks p = true <-> forall i, a <= i < b -> gN cs i = 0%N).
Proof.
  intros E. rewrite isEmptyChunks_g.
  assert (0 <= a).
  { unfold zslice in E. destruct (Z.leb_spec 0 a); auto; discriminate. }
  pose proof (fun i => g_slice 0%N _ _ _ i _ E) as G.
  assert (zlen p = b - a) by (destruct (G 0); lia). split.
  - intros H1 i Hi. specialize (H1 (i - a)). destruct (G (i - a)) as [_ G2]; [lia|].
    rewrite G2 in H1. destruct (Z.ltb_spec (i - a) (b - a)); [|lia].
    replace (a + (i - a)) with i in H1 by lia. apply H1. lia.
  - intros H1 i Hi. destruct (G i) as [_ ->]; [lia|]. destruct (Z.ltb_spec i (b - a)); auto.
    apply H1. lia.
Qed.

Lemma isEqual_spec s t : wf s -> wf t ->
  exists b, setIsEqual s t = Some b /\ (b = true <-> forall x, mem s x = mem t x).
Proof.
  intros Ws Wt.
  enough (exists b, setIsEqual s t = Some b /\ (b = true <-> forall c, cf s c = cf t c)) as (b & E & H).
  { exists b. split; auto. rewrite H. symmetry. apply mem_cf; auto. }
  destruct Ws as (ls & hs & HLs & HHs & H0s & HZs & HBs).
  destruct Wt as (lt & ht & HLt & HHt & H0t & HZt & HBt).
  set (low := Z.max ls lt). set (high := Z.min hs ht).
  assert (Hcf : (forall c, cf s c = cf t c) <->
    (forall c, ls <= c < low -> gN (chunks s) (c - ls) = 0%N) /\
    (forall c, lt <= c < low -> gN (chunks t) (c - lt) = 0%N) /\
    (forall c, high <= c < hs -> gN (chunks s) (c - ls) = 0%N) /\
    (forall c, high <= c < ht -> gN (chunks t) (c - lt) = 0%N) /\
    (forall c, low <= c < high -> gN (chunks s) (c - ls) = gN (chunks t) (c - lt))).
  { split.
    - intros H. repeat split; intros c Hc; specialize (H c); rewrite (cf_low s ls), (cf_low t lt) in H by auto;
      destruct (Z.ltb_spec c ls); try lia; destruct (Z.ltb_spec c lt); try lia; auto.
      + rewrite H. apply g_over. lia.
      + rewrite <- H. apply g_over. lia.
    - intros (A & B & C & D & E) c. rewrite (cf_low s ls), (cf_low t lt) by auto.
      destruct (Z.ltb_spec c ls); destruct (Z.ltb_spec c lt); auto.
      + symmetry. apply B. lia.
      + apply A. lia.
      + destruct (Z_lt_le_dec c high); [apply E; lia|].
        destruct (Z_lt_le_dec c hs); destruct (Z_lt_le_dec c ht).
        * rewrite C, D by lia. auto.
        * rewrite C by lia. symmetry. apply g_over. lia.
        * rewrite D by lia. apply g_over. lia.
        * rewrite !g_over by lia. reflexivity. }
  match goal with Hcf : _ <-> ?R |- _ =>
    enough (exists b, setIsEqual s t = Some b /\ (b = true <-> R)) as (b & E & H) by
      (exists b; split; [exact E | rewrite H; symmetry; exact Hcf]) end.
  clear Hcf. unfold setIsEqual. rewrite !shiftr6.
  (* low part *)
  match goal with |- exists b, (do r1 <- ?X; _) = Some b /\ _ => set (P1 := X) end.
  assert (exists e1, P1 = Some (64 * low, e1) /\ (e1 = true <->
     (forall c, ls <= c < low -> gN (chunks s) (c - ls) = 0%N) /\
     (forall c, lt <= c < low -> gN (chunks t) (c - lt) = 0%N))) as (e1 & EP1 & He1).
  { unfold P1. rewrite HLs, HLt. destruct (Z.ltb_spec (64 * ls) (64 * lt)).
    - rewrite !div64s. destruct (zslice (chunks s) 0 (lt - ls)) as [p|] eqn:E.
      2:{ rewrite zslice_Some in E; [discriminate|lia|lia]. }
      exists (isEmptyChunks p). split; [cbn [obind]; do 2 f_equal; lia|]. rewrite (slice_empty _ _ _ _ E).
      split.
      + intros H1. split; intros c Hc; [apply H1; lia|lia].
      + intros [H1 _] i Hi. specialize (H1 (i + ls)). replace (i + ls - ls) with i in H1 by lia. apply H1. lia.
    - rewrite !div64s. destruct (zslice (chunks t) 0 (ls - lt)) as [p|] eqn:E.
      2:{ rewrite zslice_Some in E; [discriminate|lia|lia]. }
      exists (isEmptyChunks p). split; [cbn [obind]; do 2 f_equal; lia|]. rewrite (slice_empty _ _ _ _ E).
      split.
      + intros H1. split; intros c Hc; [lia|apply H1; lia].
      + intros [_ H1] i Hi. specialize (H1 (i + lt)). replace (i + lt - lt) with i in H1 by lia. apply H1. lia. }
  rewrite EP1. cbn [obind]. destruct e1; cbn [negb].
  2:{ exists false. split; auto. split; [discriminate|]. intros (A & B & _). exfalso.
      assert (false = true) by (apply He1; auto). discriminate. }
  match goal with |- exists b, (do r2 <- ?X; _) = Some b /\ _ => set (P2 := X) end.
  assert (exists e2, P2 = Some (64 * high, e2) /\ (e2 = true <->
     (forall c, high <= c < hs -> gN (chunks s) (c - ls) = 0%N) /\
     (forall c, high <= c < ht -> gN (chunks t) (c - lt) = 0%N))) as (e2 & EP2 & He2).
  { unfold P2. rewrite HHs, HHt. destruct (Z.ltb_spec (64 * ht) (64 * hs)).
    - rewrite !div64s. destruct (zslice (chunks s) (zlen (chunks s) - (hs - ht)) (zlen (chunks s))) as [p|] eqn:E.
      2:{ rewrite zslice_Some in E; [discriminate|lia|lia]. }
      exists (isEmptyChunks p). split; [cbn [obind]; do 2 f_equal; lia|]. rewrite (slice_empty _ _ _ _ E).
      split.
      + intros H1. split; intros c Hc; [apply H1; lia|lia].
      + intros [H1 _] i Hi. specialize (H1 (i + ls)). replace (i + ls - ls) with i in H1 by lia. apply H1. lia.
    - rewrite !div64s. destruct (zslice (chunks t) (zlen (chunks t) - (ht - hs)) (zlen (chunks t))) as [p|] eqn:E.
      2:{ rewrite zslice_Some in E; [discriminate|lia|lia]. }
      exists (isEmptyChunks p). split; [cbn [obind]; do 2 f_equal; lia|]. rewrite (slice_empty _ _ _ _ E).
      split.
      + intros H1. split; intros c Hc; [lia|apply H1; lia].
      + intros [_ H1] i Hi. specialize (H1 (i + lt)). replace (i + lt - lt) with i in H1 by lia. apply H1. lia. }
  rewrite EP2. cbn [obind]. destruct e2; cbn [negb].
  2:{ exists false. split; auto. split; [discriminate|]. intros (A & B & C & D & _). exfalso.
      assert (false = true) by (apply He2; auto). discriminate. }
  rewrite !shiftr6, HLs, HLt, !div64s.
  replace (low - ls + (high - low) - (low - ls)) with (high - low) by lia.
  destruct (eqLoop_spec (Z.to_nat (high - low)) (chunks s) (chunks t) (low - ls) (low - lt)) as (b & -> & Hb);
    try lia.
  exists b. split; auto. rewrite Hb. rewrite Z2Nat.id by lia. split.
  - intros H. split; [apply He1; auto|]. split; [apply He1; auto|]. split; [apply He2; auto|].
    split; [apply He2; auto|]. intros c Hc. specialize (H (c - low)).
    replace (low - ls + (c - low)) with (c - ls) in H by lia.
    replace (low - lt + (c - low)) with (c - lt) in H by lia. apply H. lia.
  - intros (_ & _ & _ & _ & H) j Hj. specialize (H (low + j)).
    replace (low + j - ls) with (low - ls + j) in H by lia.
    replace (low + j - lt) with (low - lt + j) in H by lia. apply H. lia.
Qed.

(** ** enumeration *)

(** items of one chunk, in order: bits k, k+1, .. of [c], [n] of them *)
Fixpoint bitsFrom (n : nat) (item : Z) (c : N) : list Z :=
  match n with
  | O => []
  | S n' => (if N.testbit c 0 then [item] else []) ++ bitsFrom n' (item + 1) (N.shiftr c 1)
  end.

Lemma bitsFrom_In n : forall item c x,
  In x (bitsFrom n item c) <-> item <= x < item + Z.of_nat n /\ N.testbit c (Z.to_N (x - item)) = true.
Proof.
  induction n as [|n IH]; intros item c x; cbn [bitsFrom].
  - simpl. split; [tauto|]. intros [H _]. lia.
  - rewrite in_app_iff, IH. rewrite N.shiftr_spec'. split.
    + intros [H|[H1 H2]].
      * destruct (N.testbit c 0) eqn:E; [|destruct H]. destruct H as [<-|[]]. split; [lia|].
        rewrite Z.sub_diag. exact E.
      * split; [lia|]. rewrite <- H2. f_equal. lia.
    + intros [H1 H2]. destruct (Z.eq_dec x item).
      * left. subst. rewrite Z.sub_diag in H2. simpl in H2. rewrite H2. simpl; auto.
      * right. split; [lia|]. rewrite <- H2. f_equal. lia.
Qed.

Lemma StronglySorted_app (l l' : list Z) :
  StronglySorted Z.lt l -> StronglySorted Z.lt l' ->
  (forall x y, In x l -> In y l' -> x < y) -> StronglySorted Z.lt (l ++ l').
Proof.
  induction l as [|a l IH]; simpl; auto. intros H1 H2 H. inversion H1; subst.
  constructor; [apply IH; auto|]. apply Forall_app. split; auto.
  apply Forall_forall. intros y Hy. apply H; auto.
Qed.

Lemma bitsFrom_sorted n : forall item c, StronglySorted Z.lt (bitsFrom n item c).
Proof.
  induction n as [|n IH]; intros; cbn [bitsFrom]; [constructor|].
  apply StronglySorted_app; auto.
  - destruct (N.testbit c 0); repeat constructor.
  - intros x y Hx Hy. apply bitsFrom_In in Hy. destruct (N.testbit c 0); [|destruct Hx]. destruct Hx as [<-|[]]. lia.
Qed.

Fixpoint allBits (cs : list N) (item : Z) : list Z :=
  match cs with [] => [] | c :: r => bitsFrom 64 item c ++ allBits r (item + 64) end.

Lemma allBits_In cs : forall item x,
  In x (allBits cs item) <->
  item <= x < item + 64 * zlen cs /\
  N.testbit (gN cs ((x - item) / 64)) (Z.to_N ((x - item) mod 64)) = true.
Proof.
  induction cs as [|c r IH]; intros item x; cbn [allBits].
  - change (zlen (@nil N)) with 0. simpl. split; [tauto|]. intros [H _]; lia.
  - rewrite in_app_iff, bitsFrom_In, IH, zlen_cons. pose proof (zlen_nonneg r).
    change (Z.of_nat 64) with 64. split.
    + intros [[H1 H2]|[H1 H2]].
      * split; [lia|]. rewrite Z.div_small, Z.mod_small by lia. exact H2.
      * split; [lia|]. replace (x - item) with (x - (item + 64) + 1 * 64) by lia.
        rewrite Z.div_add, Z.mod_add by lia. rewrite g_cons.
        -- destruct (Z.eqb_spec ((x - (item + 64)) / 64 + 1) 0).
           ++ pose proof (Z.div_pos (x - (item + 64)) 64). lia.
           ++ rewrite <- H2. do 2 f_equal. lia.
        -- pose proof (Z.div_pos (x - (item + 64)) 64). lia.
    + intros [H1 H2]. destruct (Z_lt_le_dec x (item + 64)).
      * left. rewrite Z.div_small, Z.mod_small in H2 by lia. split; [lia|]. exact H2.
      * right. split; [lia|]. revert H2. replace (x - item) with (x - (item + 64) + 1 * 64) by lia.
        rewrite Z.div_add, Z.mod_add by lia.
        pose proof (Z.div_pos (x - (item + 64)) 64 ltac:(lia) ltac:(lia)).
        rewrite g_cons by lia. destruct (Z.eqb_spec ((x - (item + 64)) / 64 + 1) 0); [lia|].
        intros H2. rewrite <- H2. do 2 f_equal. lia.
Qed.

Lemma allBits_sorted cs : forall item, StronglySorted Z.lt (allBits cs item).
Proof.
  induction cs as [|c r IH]; intros; cbn [allBits]; [constructor|].
  apply StronglySorted_app; auto using bitsFrom_sorted.
  intros x y Hx Hy. apply bitsFrom_In in Hx. apply allBits_In in Hy. lia.
Qed.

(** popcount *)
Fixpoint ppop (p : positive) : nat :=
  match p with xH => 1 | xO q => ppop q | xI q => S (ppop q) end.
Definition npop (n : N) : nat := match n with N0 => O | Npos p => ppop p end.

Lemma npop_double_clear p : npop (N.land (Npos p) (Npos p - 1)) = pred (ppop p).
Proof.
  induction p.
  - replace (N.pos p~1 - 1)%N with (N.pos p~0)%N by lia.
    replace (N.land (N.pos p~1) (N.pos p~0)) with (N.pos p~0).
    + reflexivity.
    + simpl.
      assert (E : N.land (N.pos p) (N.pos p) = N.pos p) by apply N.land_diag. simpl in E.
      rewrite E. reflexivity.
  - assert (E : N.land (N.pos p~0) (N.pos p~0 - 1) = (2 * N.land (N.pos p) (N.pos p - 1))%N).
    { apply N.bits_inj. intros n. destruct n as [|n] using N.peano_ind.
      - rewrite N.land_spec. rewrite N.testbit_even_0.
        replace (N.testbit (N.pos p~0) 0) with false by reflexivity. reflexivity.
      - rewrite N.land_spec. rewrite N.double_bits_succ, N.land_spec.
        replace (N.pos p~0 - 1)%N with (2 * (N.pos p - 1) + 1)%N by lia.
        rewrite N.testbit_odd_succ by lia.
        replace (N.pos p~0) with (2 * N.pos p)%N by lia. rewrite N.double_bits_succ. reflexivity. }
    rewrite E. destruct (N.land (N.pos p) (N.pos p - 1)) eqn:E2; simpl in *; auto.
  - reflexivity.
Qed.

Lemma ppop_pos p : (0 < ppop p)%nat.
Proof. induction p; simpl; lia. Qed.

Lemma countBits_loop_spec f : forall c r,
  (npop c <= f)%nat -> countBits_loop f c r = Some (r + Z.of_nat (npop c)).
Proof.
  induction f as [|f IH]; intros c r H; simpl.
  - destruct c as [|p]; simpl in *; [f_equal; lia|]. pose proof (ppop_pos p). lia.
  - destruct c as [|p]; cbn [N.eqb]; [simpl; f_equal; lia|].
    rewrite IH; rewrite npop_double_clear.
    + f_equal. simpl npop. pose proof (ppop_pos p). lia.
    + simpl in H. lia.
Qed.

Lemma npop_shiftr c : npop c = ((if N.testbit c 0 then 1 else 0) + npop (N.shiftr c 1))%nat.
Proof. destruct c as [|[p|p|]]; reflexivity. Qed.

Lemma bitsFrom_length n : forall item c, (c < 2 ^ N.of_nat n)%N -> length (bitsFrom n item c) = npop c.
Proof.
  induction n as [|n IH]; intros item c H.
  - change (2 ^ N.of_nat 0)%N with 1%N in H. assert (c = 0)%N by lia. subst. reflexivity.
  - cbn [bitsFrom]. rewrite app_length, (npop_shiftr c).
    rewrite IH; [destruct (N.testbit c 0); reflexivity|].
    rewrite N.shiftr_div_pow2. change (2 ^ 1)%N with 2%N.
    apply N.div_lt_upper_bound; [lia|].
    rewrite Nat2N.inj_succ, N.pow_succ_r' in H. lia.
Qed.

Lemma countBits_spec c item : (c < 2 ^ 64)%N -> countBits c = Some (zlen (bitsFrom 64 item c)).
Proof.
  intros H. unfold zlen. rewrite (bitsFrom_length 64 item c H).
  apply countBits_loop_spec.
  rewrite <- (bitsFrom_length 64 0 c H). clear H.
  assert (G : forall n i c, (length (bitsFrom n i c) <= n)%nat).
  { clear. induction n; intros; cbn [bitsFrom]; auto. rewrite app_length.
    specialize (IHn (i + 1) (N.shiftr c 1)). destruct (N.testbit c 0); cbn [length]; lia. }
  apply G.
Qed.

Lemma countAll_spec cs : (forall c, In c cs -> (c < 2 ^ 64)%N) ->
  forall acc item, countAll cs acc = Some (acc + zlen (allBits cs item)).
Proof.
  induction cs as [|c r IH]; intros H acc item; cbn [countAll allBits].
  - f_equal. change (zlen (@nil Z)) with 0. lia.
  - rewrite (countBits_spec c item) by (apply H; simpl; auto). cbn [obind].
    rewrite (IH ltac:(intros; apply H; simpl; auto) _ (item + 64)).
    rewrite zlen_app. f_equal. lia.
Qed.

Lemma upd_mid (done rest : list Z) z x :
  upd (done ++ z :: rest) (length done) x = (done ++ [x]) ++ rest.
Proof. induction done; simpl; auto. f_equal. auto. Qed.

Lemma testbit0_land c : negb (N.eqb (N.land c 1) 0) = N.testbit c 0.
Proof. destruct c as [|[p|p|]]; reflexivity. Qed.

Lemma bitLoop_spec n : forall done k item c,
  (length (bitsFrom n item c) <= k)%nat ->
  bitLoop n (done ++ repeat 0 k) (zlen done) item c =
  Some ((done ++ bitsFrom n item c) ++ repeat 0 (k - length (bitsFrom n item c)),
        zlen (done ++ bitsFrom n item c), item + Z.of_nat n).
Proof.
  induction n as [|n IH]; intros done k item c H.
  - cbn [bitLoop bitsFrom]. rewrite app_nil_r. simpl length. rewrite Nat.sub_0_r, Z.add_0_r. reflexivity.
  - cbn [bitLoop bitsFrom] in *. rewrite testbit0_land. destruct (N.testbit c 0).
    + rewrite app_length in H. change (length [item]) with 1%nat in H.
      destruct k as [|k]; [lia|]. cbn [repeat].
      rewrite zset_Some.
      2:{ rewrite zlen_app, zlen_cons. pose proof (zlen_nonneg done). pose proof (zlen_nonneg (repeat 0 k)). lia. }
      cbn [obind]. unfold zlen at 1. rewrite Nat2Z.id. rewrite upd_mid.
      replace (zlen done + 1) with (zlen (done ++ [item])) by (rewrite zlen_app; reflexivity).
      rewrite IH by lia. f_equal. rewrite <- !app_assoc. cbn [app].
      replace (item + 1 + Z.of_nat n) with (item + Z.of_nat (S n)) by lia. reflexivity.
    + cbn [obind app] in *. rewrite IH by auto.
      replace (item + 1 + Z.of_nat n) with (item + Z.of_nat (S n)) by lia. reflexivity.
Qed.

Lemma chunkLoop_spec cs : forall done k item,
  (length (allBits cs item) <= k)%nat ->
  chunkLoop cs (done ++ repeat 0 k) (zlen done) item =
  Some ((done ++ allBits cs item) ++ repeat 0 (k - length (allBits cs item))).
Proof.
  induction cs as [|c r IH]; intros done k item H; cbn [chunkLoop allBits] in *.
  - rewrite app_nil_r. simpl length. rewrite Nat.sub_0_r. reflexivity.
  - rewrite app_length in H. rewrite bitLoop_spec by lia. cbn [obind].
    change (Z.of_nat 64) with 64.
    rewrite IH by lia. rewrite <- !app_assoc. rewrite app_length.
    rewrite Nat.sub_add_distr. reflexivity.
Qed.

Lemma toSlice_spec s : wf s ->
  exists l, toSlice s = Some l /\ StronglySorted Z.lt l /\ forall x, In x l <-> mem s x = true.
Proof.
  intros (lo & hi & HL & HH & H0 & HZ & HB). unfold toSlice.
  rewrite (countAll_spec (chunks s)) with (item := lowItem s).
  2:{ intros c Hc. apply (In_nth _ _ 0%N) in Hc as (n & Hn & <-).
      specialize (HB (Z.of_nat n)). unfold g in HB. rewrite Nat2Z.id in HB. exact HB. }
  cbn [obind]. rewrite zmake_Some by (pose proof (zlen_nonneg (allBits (chunks s) (lowItem s))); lia).
  cbn [obind]. rewrite Z.add_0_l. unfold zlen at 1. rewrite Nat2Z.id.
  pose proof (chunkLoop_spec (chunks s) [] (length (allBits (chunks s) (lowItem s))) (lowItem s) ltac:(lia)) as E.
  cbn [app] in E. change (zlen (@nil Z)) with 0 in E. rewrite E.
  rewrite Nat.sub_diag. cbn [repeat]. rewrite app_nil_r.
  eexists; split; [reflexivity|]. split; [apply allBits_sorted|].
  intros x. rewrite allBits_In. unfold mem. rewrite (cf_low s lo) by auto.
  rewrite HL. replace (x - 64 * lo) with (x + (- lo) * 64) by lia.
  rewrite Z.div_add, Z.mod_add by lia. replace (x / 64 + - lo) with (x / 64 - lo) by lia.
  destruct (Z.ltb_spec (x / 64) lo).
  - split.
    + intros [H1 _]. assert (lo <= x / 64) by (apply Z.div_le_lower_bound; lia). lia.
    + rewrite N.bits_0. discriminate.
  - split; [tauto|]. intros H1. split; auto.
    assert (64 * lo <= x) by (pose proof (Z.mul_div_le x 64); lia).
    split; auto. destruct (Z_lt_le_dec x (64 * lo + 64 * zlen (chunks s))); auto.
    rewrite g_over in H1; [rewrite N.bits_0 in H1; discriminate|].
    assert (hi <= x / 64) by (apply Z.div_le_lower_bound; lia). lia.
Qed.
