(** Representation invariant of the ring buffer and preservation lemmas. *)
From Coq Require Import ZArith List Lia Bool.
From Verif Require Import Base BaseProofs Queue.
Import ListNotations.
Open Scope Z_scope.

(** ** computeSize *)

Definition top (m j y : Z) : Prop :=
  0 <= y < 2 ^ (m + 1) /\ forall i, m - j < i <= m -> 0 <= i -> Z.testbit y i = true.

Lemma testbit_above y m i : 0 <= y < 2 ^ m -> m <= i -> 0 <= m -> Z.testbit y i = false.
Proof.
  intros H1 H2 H3. destruct (Z.eq_dec y 0) as [->|]; [apply Z.bits_0|].
  apply Z.bits_above_log2; [lia|].
  assert (Z.log2 y < m) by (apply Z.log2_lt_pow2; lia). lia.
Qed.

Lemma below_by_bits y m :
  0 <= m -> 0 <= y -> (forall i, m <= i -> Z.testbit y i = false) -> y < 2 ^ m.
Proof.
  intros Hm H0 H. destruct (Z_lt_le_dec y (2 ^ m)); auto. exfalso.
  assert (0 < y) by (pose proof (Z.pow_pos_nonneg 2 m); lia).
  assert (m <= Z.log2 y) by (apply Z.log2_le_pow2; lia).
  specialize (H _ H2). rewrite Z.bit_log2 in H by lia. discriminate.
Qed.

Lemma top_step m j s y :
  0 <= m -> 0 < s <= j -> top m j y -> top m (j + s) (Z.lor y (Z.shiftr y s)).
Proof.
  intros Hm Hs [Hb Ht]. split.
  - assert (0 <= Z.lor y (Z.shiftr y s)).
    { apply Z.lor_nonneg. split; [lia|]. apply Z.shiftr_nonneg. lia. }
    split; auto. apply below_by_bits; try lia.
    intros i Hi. rewrite Z.lor_spec, Z.shiftr_spec by lia.
    rewrite (testbit_above y (m+1)) by lia.
    rewrite (testbit_above y (m+1)) by lia. reflexivity.
  - intros i Hi H0. rewrite Z.lor_spec, Z.shiftr_spec by lia.
    apply orb_true_iff.
    destruct (Z_lt_le_dec (m - j) i).
    + left. apply Ht; lia.
    + right. apply Ht; lia.
Qed.

Lemma top_full m y : 0 <= m < 32 -> top m 32 y -> y = 2 ^ (m + 1) - 1.
Proof.
  intros Hm [Hb Ht].
  replace (2 ^ (m + 1) - 1) with (Z.ones (m + 1)) by (rewrite Z.ones_equiv; lia).
  apply Z.bits_inj'. intros n Hn.
  rewrite Z.testbit_ones_nonneg by lia.
  destruct (Z.ltb_spec n (m + 1)).
  - apply Ht; lia.
  - apply testbit_above with (m + 1); lia.
Qed.

Lemma computeSize_spec x :
  0 <= x < 2 ^ 32 ->
  exists k, 2 <= k /\ computeSize x = 2 ^ k - 1 /\ x < 2 ^ k.
Proof.
  intros Hx. unfold computeSize, minSize. destruct (Z.leb_spec x 3).
  - exists 2. change (2 ^ 2) with 4. lia.
  - set (m := Z.log2 x).
    assert (Hm : 0 <= m < 32).
    { split; [apply Z.log2_nonneg|]. apply Z.log2_lt_pow2; lia. }
    assert (Hl : 2 ^ m <= x < 2 ^ (m + 1)) by (apply Z.log2_spec; lia).
    assert (T1 : top m 1 x).
    { split; [lia|]. intros i Hi Hi0. replace i with m by lia. apply Z.bit_log2. lia. }
    apply (top_step m 1 1) in T1; try lia.
    apply (top_step m 2 2) in T1; try lia.
    apply (top_step m 4 4) in T1; try lia.
    apply (top_step m 8 8) in T1; try lia.
    apply (top_step m 16 16) in T1; try lia.
    apply top_full in T1; auto.
    exists (m + 1). split; [|split; auto; try lia].
    assert (2 <= m + 1); [|lia].
    assert (1 <= m); [|lia]. apply Z.log2_le_pow2; lia.
Qed.

(** ** Ring arithmetic *)

Lemma land_mask x k : 0 <= k -> Z.land x (2 ^ k - 1) = x mod 2 ^ k.
Proof.
  intros. replace (2 ^ k - 1) with (Z.ones k) by (rewrite Z.ones_equiv; lia).
  apply Z.land_ones. auto.
Qed.

Lemma mod_cases x n : 0 < n -> 0 <= x < 2 * n ->
  (x < n /\ x mod n = x) \/ (n <= x /\ x mod n = x - n).
Proof.
  intros. destruct (Z_lt_le_dec x n).
  - left. split; auto. apply Z.mod_small. lia.
  - right. split; auto. symmetry. apply Z.mod_unique with 1; lia.
Qed.

Ltac modc x n := 
  let H := fresh "M" in let E := fresh "E" in
  destruct (mod_cases x n) as [[H E]|[H E]]; [lia|lia|try rewrite E in *|try rewrite E in *].

Section Queue.
Context {T : Type} (zero : T).
Implicit Types (q : queue T) (l : list T).

Definition g (l : list T) (i : Z) : T := nth (Z.to_nat i) l zero.

Lemma g_over l i : zlen l <= i -> g l i = zero.
Proof. intros. unfold g. apply nth_overflow. unfold zlen in *; lia. Qed.

Lemma g_upd l i j x : 0 <= i < zlen l -> 0 <= j ->
  g (upd l (Z.to_nat i) x) j = if j =? i then x else g l j.
Proof.
  intros. unfold g. rewrite nth_upd by (unfold zlen in *; lia).
  destruct (Nat.eqb_spec (Z.to_nat j) (Z.to_nat i)); destruct (Z.eqb_spec j i); auto; lia.
Qed.

Lemma zlen_upd l n x : zlen (upd l n x) = zlen l.
Proof. unfold zlen. rewrite upd_length. auto. Qed.

Lemma g_slice l a b i r : zslice l a b = Some r -> 0 <= i ->
  zlen r = b - a /\ g r i = if i <? b - a then g l (a + i) else zero.
Proof.
  unfold zslice. destruct (Z.leb_spec 0 a); [|discriminate].
  destruct (Z.leb_spec a b); [|discriminate].
  destruct (Z.leb_spec b (zlen l)); [|discriminate]. simpl.
  injection 1 as <-. intros Hi.
  assert (HL : zlen (firstn (Z.to_nat (b - a)) (skipn (Z.to_nat a) l)) = b - a).
  { unfold zlen in *. rewrite firstn_length, skipn_length. lia. }
  split; auto. destruct (Z.ltb_spec i (b - a)).
  - unfold g. rewrite nth_firstn by lia. rewrite nth_skipn. f_equal. lia.
  - apply g_over. lia.
Qed.

Lemma g_copy dst off src i r : zcopy dst off src = Some r -> 0 <= i ->
  zlen r = zlen dst /\
  g r i = if (off <=? i) && (i <? off + zlen src) && (i <? zlen dst) then g src (i - off) else g dst i.
Proof.
  intros H Hi.
  assert (0 <= off).
  { unfold zcopy in H. destruct (Z.leb_spec 0 off); auto; discriminate. }
  destruct (zcopy_nth _ _ _ _ (Z.to_nat i) zero H) as [HL HN].
  split; [unfold zlen; lia|].
  unfold g. rewrite HN. unfold zlen.
  destruct (Nat.ltb_spec (Z.to_nat i) (Z.to_nat off));
  destruct (Z.leb_spec off i); try lia; simpl; auto.
  destruct (Nat.ltb_spec (Z.to_nat i) (Z.to_nat off + length src));
  destruct (Z.ltb_spec i (off + Z.of_nat (length src))); try lia; simpl; auto.
  destruct (Nat.ltb_spec (Z.to_nat i) (length dst));
  destruct (Z.ltb_spec i (Z.of_nat (length dst))); try lia; simpl; auto.
  f_equal. lia.
Qed.

Lemma g_make n i r : zmake zero n = Some r -> zlen r = n /\ g r i = zero.
Proof.
  unfold zmake. destruct (Z.ltb_spec n 0); [discriminate|]. injection 1 as <-.
  split.
  - unfold zlen. rewrite repeat_length. lia.
  - unfold g. apply nth_repeat_any.
Qed.

Lemma g_ext l l' : zlen l = zlen l' ->
  (forall i, 0 <= i < zlen l -> g l i = g l' i) -> l = l'.
Proof. intros. apply (nth_ext_Z l l' zero); auto. unfold zlen in *; lia. Qed.

Lemma g_app l l' i : 0 <= i ->
  g (l ++ l') i = if i <? zlen l then g l i else g l' (i - zlen l).
Proof.
  intros. unfold g, zlen. destruct (Z.ltb_spec i (Z.of_nat (length l))).
  - apply app_nth1. lia.
  - rewrite app_nth2 by lia. f_equal. lia.
Qed.

Lemma g_cons x l i : 0 <= i -> g (x :: l) i = if i =? 0 then x else g l (i - 1).
Proof.
  intros. unfold g. destruct (Z.eqb_spec i 0).
  - subst; reflexivity.
  - replace (Z.to_nat i) with (S (Z.to_nat (i - 1))) by lia. reflexivity.
Qed.

Lemma zlen_app l l' : zlen (l ++ l') = zlen l + zlen l'.
Proof. unfold zlen. rewrite app_length. lia. Qed.
Lemma zlen_cons x l : zlen (x :: l) = zlen l + 1.
Proof. unfold zlen. simpl. lia. Qed.

(** The queue [q] represents the list [l].  Slots with offset at or beyond
    the length hold [zero] because [g l i = zero] there. *)
Definition inv q l : Prop :=
  exists k, 2 <= k /\ qsize q = 2 ^ k - 1 /\ zlen (qitems q) = 2 ^ k /\
    0 <= qhead q < 2 ^ k /\ qtail q = (qhead q + zlen l) mod 2 ^ k /\
    zlen l < 2 ^ k /\
    forall i, 0 <= i < 2 ^ k -> g (qitems q) ((qhead q + i) mod 2 ^ k) = g l i.

Lemma pow_pos k : 2 <= k -> 4 <= 2 ^ k.
Proof. intros. change 4 with (2 ^ 2). apply Z.pow_le_mono_r; lia. Qed.

Lemma fill_inv l : zlen l < 2 ^ 32 -> exists q, qFill zero l = Some q /\ inv q l.
Proof.
  intros Hl. unfold qFill. pose proof (zlen_nonneg l).
  destruct (computeSize_spec (zlen l)) as (k & Hk & HC & HL); [lia|].
  rewrite HC. pose proof (pow_pos k Hk).
  destruct (zmake zero (2 ^ k - 1 + 1)) as [a|] eqn:Ea; [|rewrite zmake_Some in Ea by lia; discriminate].
  simpl. pose proof (fun i => g_make _ i _ Ea) as Ha.
  destruct (zcopy_total a 0 l) as [a' Ea']; [pose proof (zlen_nonneg a); lia|].
  rewrite Ea'. simpl. eexists; split; [reflexivity|].
  pose proof (fun i => g_copy _ _ _ i _ Ea') as Ha'.
  exists k. simpl. repeat split; try lia.
  - destruct (Ha' 0); [lia|]. destruct (Ha 0). lia.
  - rewrite Z.mod_small; lia.
  - intros i Hi. rewrite Z.mod_small by lia. simpl.
    destruct (Ha' i) as [_ ->]; [lia|]. rewrite (proj2 (Ha i)), (proj1 (Ha i)).
    destruct (Z.ltb_spec i (0 + zlen l)); destruct (Z.leb_spec 0 i); try lia;
    destruct (Z.ltb_spec i (2 ^ k - 1 + 1)); try lia; simpl.
    + f_equal; lia.
    + symmetry; apply g_over; lia.
Qed.

Lemma len_inv q l : inv q l -> qLen q = zlen l.
Proof.
  intros (k & Hk & Hs & Hi & Hh & Ht & Hl & _). unfold qLen.
  pose proof (pow_pos k Hk). pose proof (zlen_nonneg l).
  rewrite Hs, land_mask by lia. rewrite Ht.
  modc (qhead q + zlen l) (2 ^ k).
  - replace (qhead q + zlen l + (2 ^ k - 1) + 1 - qhead q) with (zlen l + 1 * 2 ^ k) by lia.
    rewrite Z.mod_add, Z.mod_small; lia.
  - replace (qhead q + zlen l - 2 ^ k + (2 ^ k - 1) + 1 - qhead q) with (zlen l) by lia.
    rewrite Z.mod_small; lia.
Qed.

Lemma empty_inv q l : inv q l -> qhead q =? qtail q = (zlen l =? 0).
Proof.
  intros (k & Hk & Hs & Hi & Hh & Ht & Hl & _).
  pose proof (pow_pos k Hk). pose proof (zlen_nonneg l).
  rewrite Ht. modc (qhead q + zlen l) (2 ^ k);
  destruct (Z.eqb_spec (zlen l) 0); first [apply Z.eqb_eq | apply Z.eqb_neq]; lia.
Qed.

Lemma peek_inv q l i : inv q l ->
  qPeek q i = Some (let j := if i <? 0 then i + zlen l else i in
                    if (j <? 0) || (zlen l <=? j) then None else Some (g l j)).
Proof.
  intros HI. unfold qPeek. rewrite (len_inv _ _ HI). cbv zeta.
  set (j := if i <? 0 then i + zlen l else i).
  destruct (Z.ltb_spec j 0); [reflexivity|].
  destruct (Z.leb_spec (zlen l) j); [reflexivity|]. simpl.
  destruct HI as (k & Hk & Hs & Hit & Hh & Ht & Hl & HG).
  pose proof (pow_pos k Hk). rewrite Hs, land_mask by lia.
  rewrite (zget_Some _ _ zero).
  - simpl. do 2 f_equal. apply HG. lia.
  - rewrite Hit. apply Z.mod_pos_bound. lia.
Qed.

Lemma items_inv q l : inv q l -> qItems zero q = Some l.
Proof.
  intros HI. unfold qItems. rewrite (len_inv _ _ HI).
  destruct HI as (k & Hk & Hs & Hit & Hh & Ht & Hl & HG).
  pose proof (pow_pos k Hk). pose proof (zlen_nonneg l).
  destruct (zmake zero (zlen l)) as [r|] eqn:Er; [|rewrite zmake_Some in Er by lia; discriminate].
  simpl. pose proof (fun i => g_make _ i _ Er) as Hr.
  assert (Hrl : zlen r = zlen l) by (apply (Hr 0)).
  destruct (Z.leb_spec (qhead q) (qtail q)).
  - destruct (zslice (qitems q) (qhead q) (qtail q)) as [s|] eqn:Es.
    2:{ rewrite zslice_Some in Es; [discriminate|lia|]. rewrite Hit, Ht.
        modc (qhead q + zlen l) (2 ^ k); lia. }
    simpl. pose proof (fun i => g_slice _ _ _ i _ Es) as Hsl.
    destruct (zcopy_total r 0 s) as [r' Er']; [pose proof (zlen_nonneg r); lia|].
    rewrite Er'. f_equal. pose proof (fun i => g_copy _ _ _ i _ Er') as Hc.
    assert (Hr'l : zlen r' = zlen l) by (destruct (Hc 0); lia).
    apply g_ext; [lia|]. intros i Hi. rewrite Hr'l in Hi.
    assert (qtail q - qhead q = zlen l).
    { rewrite Ht in *. modc (qhead q + zlen l) (2 ^ k); lia. }
    destruct (Hc i) as [_ ->]; [lia|].
    destruct (Hsl i) as [Hsn _]; [lia|]. rewrite Hsn.
    destruct (Z.leb_spec 0 i); [|lia]. destruct (Z.ltb_spec i (0 + (qtail q - qhead q))); [|lia].
    destruct (Z.ltb_spec i (zlen r)); [|lia]. simpl.
    destruct (Hsl (i - 0)) as [_ ->]; [lia|]. destruct (Z.ltb_spec (i - 0) (qtail q - qhead q)); [|lia].
    rewrite <- HG by lia. f_equal. symmetry.
    rewrite Z.mod_small; [lia|]. rewrite Ht in *. modc (qhead q + zlen l) (2 ^ k); lia.
  - assert (Htl : qtail q = qhead q + zlen l - 2 ^ k).
    { rewrite Ht in *. modc (qhead q + zlen l) (2 ^ k); lia. }
    destruct (zslice (qitems q) (qhead q) (qsize q + 1)) as [s1|] eqn:Es1.
    2:{ rewrite zslice_Some in Es1; [discriminate|lia|lia]. }
    simpl. pose proof (fun i => g_slice _ _ _ i _ Es1) as Hs1.
    destruct (zcopy_total r 0 s1) as [r1 Er1]; [pose proof (zlen_nonneg r); lia|].
    rewrite Er1. simpl. pose proof (fun i => g_copy _ _ _ i _ Er1) as Hr1.
    destruct (zslice (qitems q) 0 (qtail q)) as [s2|] eqn:Es2.
    2:{ rewrite zslice_Some in Es2; [discriminate| |].
        - rewrite Ht. pose proof (Z.mod_pos_bound (qhead q + zlen l) (2 ^ k)). lia.
        - lia. }
    simpl. pose proof (fun i => g_slice _ _ _ i _ Es2) as Hs2.
    assert (0 <= qtail q) by (rewrite Ht; apply Z.mod_pos_bound; lia).
    assert (zlen r1 = zlen l) by (destruct (Hr1 0); lia).
    destruct (zcopy_total r1 (qsize q - qhead q + 1) s2) as [r2 Er2]; [lia|].
    rewrite Er2. f_equal. pose proof (fun i => g_copy _ _ _ i _ Er2) as Hr2.
    assert (Hr2l : zlen r2 = zlen l) by (destruct (Hr2 0); lia).
    apply g_ext; [lia|]. intros i Hi. rewrite Hr2l in Hi.
    destruct (Hr2 i) as [_ ->]; [lia|].
    destruct (Hs2 i) as [Hs2n _]; [lia|]. rewrite Hs2n.
    destruct (Hs1 i) as [Hs1n _]; [lia|].
    rewrite <- HG by lia.
    modc (qhead q + i) (2 ^ k).
    + destruct (Z.leb_spec (qsize q - qhead q + 1) i); [lia|]. simpl.
      destruct (Hr1 i) as [_ ->]; [lia|]. rewrite Hs1n.
      destruct (Z.leb_spec 0 i); [|lia]. destruct (Z.ltb_spec i (0 + (qsize q + 1 - qhead q))); [|lia].
      destruct (Z.ltb_spec i (zlen r)); [|lia]. simpl.
      destruct (Hs1 (i - 0)) as [_ ->]; [lia|].
      destruct (Z.ltb_spec (i - 0) (qsize q + 1 - qhead q)); [|lia]. f_equal. lia.
    + destruct (Z.leb_spec (qsize q - qhead q + 1) i); [|lia].
      destruct (Z.ltb_spec i (qsize q - qhead q + 1 + (qtail q - 0))); [|lia].
      destruct (Z.ltb_spec i (zlen r1)); [|lia]. simpl.
      destruct (Hs2 (i - (qsize q - qhead q + 1))) as [_ ->]; [lia|].
      destruct (Z.ltb_spec (i - (qsize q - qhead q + 1)) (qtail q - 0)); [|lia]. f_equal. lia.
Qed.

(** Growing a completely full ring. *)
Lemma grow_inv q l k :
  2 <= k -> qsize q = 2 ^ k - 1 -> zlen (qitems q) = 2 ^ k ->
  0 <= qhead q < 2 ^ k -> zlen l = 2 ^ k ->
  (forall i, 0 <= i < 2 ^ k -> g (qitems q) ((qhead q + i) mod 2 ^ k) = g l i) ->
  exists q', qGrow zero q = Some q' /\ inv q' l.
Proof.
  intros Hk Hs Hit Hh Hl HG. pose proof (pow_pos k Hk).
  unfold qGrow. rewrite Hs.
  assert (Hsh : Z.shiftl (2 ^ k - 1 + 1) 1 = 2 ^ (k + 1)).
  { rewrite Z.shiftl_mul_pow2 by lia. replace (2 ^ k - 1 + 1) with (2 ^ k) by lia.
    rewrite Z.pow_add_r by lia. reflexivity. }
  rewrite Hsh.
  assert (HP : 2 ^ (k + 1) = 2 ^ k + 2 ^ k) by (rewrite Z.pow_add_r by lia; lia).
  destruct (zmake zero (2 ^ (k + 1))) as [a|] eqn:Ea; [|rewrite zmake_Some in Ea by lia; discriminate].
  simpl. pose proof (fun i => g_make _ i _ Ea) as Ha.
  assert (Hal : zlen a = 2 ^ (k + 1)) by apply (Ha 0).
  destruct (zslice (qitems q) (qhead q) (zlen (qitems q))) as [s1|] eqn:Es1.
  2:{ rewrite zslice_Some in Es1; [discriminate|lia|lia]. }
  simpl. pose proof (fun i => g_slice _ _ _ i _ Es1) as Hs1.
  destruct (zcopy_total a 0 s1) as [a1 Ea1]; [lia|].
  rewrite Ea1. simpl. pose proof (fun i => g_copy _ _ _ i _ Ea1) as Ha1.
  assert (Ha1l : zlen a1 = 2 ^ (k + 1)) by (destruct (Ha1 0); lia).
  assert (exists a2, (if 0 <? qhead q
     then do s2 <- zslice (qitems q) 0 (qhead q); zcopy a1 (2 ^ k - 1 + 1 - qhead q) s2
     else Some a1) = Some a2 /\ zlen a2 = 2 ^ (k + 1) /\
     forall i, 0 <= i < 2 ^ (k + 1) -> g a2 i = if i <? 2 ^ k then g (qitems q) ((qhead q + i) mod 2 ^ k) else zero)
    as (a2 & E2 & L2 & G2).
  { destruct (Hs1 0) as [Hs1n _]; [lia|].
    destruct (Z.ltb_spec 0 (qhead q)).
    - destruct (zslice (qitems q) 0 (qhead q)) as [s2|] eqn:Es2.
      2:{ rewrite zslice_Some in Es2; [discriminate|lia|lia]. }
      simpl. pose proof (fun i => g_slice _ _ _ i _ Es2) as Hs2.
      destruct (zcopy_total a1 (2 ^ k - 1 + 1 - qhead q) s2) as [a2 Ea2]; [lia|].
      exists a2. rewrite Ea2. split; auto. pose proof (fun i => g_copy _ _ _ i _ Ea2) as Ha2.
      destruct (Hs2 0) as [Hs2n _]; [lia|].
      split; [destruct (Ha2 0); lia|]. intros i Hi.
      destruct (Ha2 i) as [_ ->]; [lia|]. rewrite Hs2n.
      destruct (Z.ltb_spec i (2 ^ k)).
      + modc (qhead q + i) (2 ^ k).
        * destruct (Z.leb_spec (2 ^ k - 1 + 1 - qhead q) i); [lia|]. simpl.
          destruct (Ha1 i) as [_ ->]; [lia|]. rewrite Hs1n.
          destruct (Z.leb_spec 0 i); [|lia]. destruct (Z.ltb_spec i (0 + (zlen (qitems q) - qhead q))); [|lia].
          destruct (Z.ltb_spec i (zlen a)); [|lia]. simpl.
          destruct (Hs1 (i - 0)) as [_ ->]; [lia|].
          destruct (Z.ltb_spec (i - 0) (zlen (qitems q) - qhead q)); [|lia]. f_equal; lia.
        * destruct (Z.leb_spec (2 ^ k - 1 + 1 - qhead q) i); [|lia].
          destruct (Z.ltb_spec i (2 ^ k - 1 + 1 - qhead q + (qhead q - 0))); [|lia].
          destruct (Z.ltb_spec i (zlen a1)); [|lia]. simpl.
          destruct (Hs2 (i - (2 ^ k - 1 + 1 - qhead q))) as [_ ->]; [lia|].
          destruct (Z.ltb_spec (i - (2 ^ k - 1 + 1 - qhead q)) (qhead q - 0)); [|lia]. f_equal; lia.
      + destruct (Z.ltb_spec i (2 ^ k - 1 + 1 - qhead q + (qhead q - 0))); [lia|].
        rewrite andb_false_r. simpl.
        destruct (Ha1 i) as [_ ->]; [lia|]. rewrite Hs1n.
        destruct (Z.ltb_spec i (0 + (zlen (qitems q) - qhead q))); [lia|].
        rewrite andb_false_r. simpl. apply Ha.
    - exists a1. split; auto. split; auto. intros i Hi.
      destruct (Ha1 i) as [_ ->]; [lia|]. rewrite Hs1n.
      destruct (Z.leb_spec 0 i); [|lia].
      destruct (Z.ltb_spec i (zlen a)); [|lia].
      destruct (Z.ltb_spec i (0 + (zlen (qitems q) - qhead q)));
      destruct (Z.ltb_spec i (2 ^ k)); try lia; simpl.
      + destruct (Hs1 (i - 0)) as [_ ->]; [lia|].
        destruct (Z.ltb_spec (i - 0) (zlen (qitems q) - qhead q)); [|lia].
        f_equal. rewrite Z.mod_small; lia.
      + apply Ha. }
  rewrite E2. simpl. eexists; split; [reflexivity|].
  exists (k + 1). simpl. repeat split; try lia.
  - rewrite Z.mod_small; lia.
  - intros i Hi. rewrite Z.mod_small by lia. simpl. rewrite G2 by lia.
    destruct (Z.ltb_spec i (2 ^ k)).
    + apply HG; lia.
    + symmetry; apply g_over; lia.
Qed.

Lemma append_inv q l x : inv q l -> exists q', qAppend zero q x = Some q' /\ inv q' (l ++ [x]).
Proof.
  intros (k & Hk & Hs & Hit & Hh & Ht & Hl & HG).
  pose proof (pow_pos k Hk). pose proof (zlen_nonneg l).
  assert (Htb : 0 <= qtail q < 2 ^ k) by (rewrite Ht; apply Z.mod_pos_bound; lia).
  unfold qAppend. rewrite zset_Some by lia. simpl.
  rewrite Hs, land_mask by lia.
  assert (HLA : zlen (l ++ [x]) = zlen l + 1) by (rewrite zlen_app; reflexivity).
  assert (HG' : forall i, 0 <= i < 2 ^ k ->
    g (upd (qitems q) (Z.to_nat (qtail q)) x) ((qhead q + i) mod 2 ^ k) = g (l ++ [x]) i).
  { intros i Hi. assert (0 <= (qhead q + i) mod 2 ^ k) by (apply Z.mod_pos_bound; lia).
    rewrite g_upd by lia. rewrite g_app by lia.
    rewrite HG by lia. rewrite Ht.
    destruct (Z.ltb_spec i (zlen l)).
    - destruct (Z.eqb_spec ((qhead q + i) mod 2 ^ k) ((qhead q + zlen l) mod 2 ^ k)); auto.
      exfalso. modc (qhead q + i) (2 ^ k); modc (qhead q + zlen l) (2 ^ k); lia.
    - rewrite g_cons by lia.
      destruct (Z.eqb_spec ((qhead q + i) mod 2 ^ k) ((qhead q + zlen l) mod 2 ^ k)).
      + destruct (Z.eqb_spec (i - zlen l) 0); auto.
        exfalso. modc (qhead q + i) (2 ^ k); modc (qhead q + zlen l) (2 ^ k); lia.
      + destruct (Z.eqb_spec (i - zlen l) 0).
        * exfalso. apply n. f_equal. lia.
        * rewrite (g_over [] _) by (change (zlen (@nil T)) with 0; lia). apply g_over. lia. }
  assert (HT : (qtail q + 1) mod 2 ^ k = (qhead q + zlen (l ++ [x])) mod 2 ^ k).
  { rewrite HLA, Ht. rewrite Z.add_mod_idemp_l by lia. f_equal. lia. }
  destruct (Z.eqb_spec ((qtail q + 1) mod 2 ^ k) (qhead q)).
  - apply grow_inv with k; simpl; auto; try lia.
    + rewrite zlen_upd. lia.
    + rewrite HLA. rewrite HLA in HT. rewrite HT in e.
      destruct (Z_lt_le_dec (zlen l + 1) (2 ^ k)); [|lia].
      exfalso. modc (qhead q + (zlen l + 1)) (2 ^ k); lia.
  - eexists; split; [reflexivity|]. exists k. simpl.
    assert (zlen (l ++ [x]) < 2 ^ k).
    { rewrite HLA in *. destruct (Z_lt_le_dec (zlen l + 1) (2 ^ k)); auto.
      exfalso. apply n. rewrite HT. replace (zlen l + 1) with (2 ^ k) by lia.
      replace (qhead q + 2 ^ k) with (qhead q + 1 * 2 ^ k) by lia.
      rewrite Z.mod_add, Z.mod_small; lia. }
    repeat split; auto; try lia. rewrite zlen_upd. lia.
Qed.

Lemma prepend_inv q l x : inv q l -> exists q', qPrepend zero q x = Some q' /\ inv q' (x :: l).
Proof.
  intros (k & Hk & Hs & Hit & Hh & Ht & Hl & HG).
  pose proof (pow_pos k Hk). pose proof (zlen_nonneg l).
  unfold qPrepend. rewrite Hs, land_mask by lia.
  set (h := (qhead q - 1) mod 2 ^ k).
  assert (Hhb : 0 <= h < 2 ^ k) by (apply Z.mod_pos_bound; lia).
  assert (Hhv : h = if qhead q =? 0 then 2 ^ k - 1 else qhead q - 1).
  { unfold h. destruct (Z.eqb_spec (qhead q) 0).
    - rewrite e. symmetry. apply Z.mod_unique with (-1); lia.
    - apply Z.mod_small; lia. }
  rewrite zset_Some by lia. simpl.
  assert (HLA : zlen (x :: l) = zlen l + 1) by apply zlen_cons.
  assert (HH : (h + 1) mod 2 ^ k = qhead q).
  { rewrite Hhv. destruct (Z.eqb_spec (qhead q) 0).
    - replace (2 ^ k - 1 + 1) with (2 ^ k) by lia. rewrite Z.mod_same by lia. lia.
    - rewrite Z.mod_small by lia. lia. }
  assert (HG' : forall i, 0 <= i < 2 ^ k ->
    g (upd (qitems q) (Z.to_nat h) x) ((h + i) mod 2 ^ k) = g (x :: l) i).
  { intros i Hi. assert (0 <= (h + i) mod 2 ^ k) by (apply Z.mod_pos_bound; lia).
    rewrite g_upd by lia. rewrite g_cons by lia.
    destruct (Z.eqb_spec i 0).
    - subst i. rewrite Z.add_0_r, Z.mod_small, Z.eqb_refl by lia. reflexivity.
    - destruct (Z.eqb_spec ((h + i) mod 2 ^ k) h).
      + exfalso. modc (h + i) (2 ^ k); lia.
      + rewrite <- HG by lia. f_equal. rewrite <- HH at 1. rewrite Z.add_mod_idemp_l by lia. f_equal. lia. }
  assert (HT : qtail q = (h + zlen (x :: l)) mod 2 ^ k).
  { rewrite HLA, Ht. rewrite <- HH. rewrite Z.add_mod_idemp_l by lia. f_equal. lia. }
  destruct (Z.eqb_spec h (qtail q)).
  - apply grow_inv with k; simpl; auto; try lia.
    + rewrite zlen_upd. lia.
    + rewrite HLA in *. destruct (Z_lt_le_dec (zlen l + 1) (2 ^ k)); [|lia].
      exfalso. modc (h + (zlen l + 1)) (2 ^ k); lia.
  - eexists; split; [reflexivity|]. exists k. simpl.
    assert (zlen (x :: l) < 2 ^ k).
    { rewrite HLA in *. destruct (Z_lt_le_dec (zlen l + 1) (2 ^ k)); auto.
      exfalso. apply n. rewrite HT. replace (zlen l + 1) with (2 ^ k) by lia.
      replace (h + 2 ^ k) with (h + 1 * 2 ^ k) by lia.
      rewrite Z.mod_add, Z.mod_small; lia. }
    repeat split; auto; try lia. rewrite zlen_upd. lia.
Qed.

Lemma first_inv q l : inv q l -> zlen l < 2 ^ 31 ->
  exists q', qFirst zero q = Some (q', match l with [] => None | x :: _ => Some x end)
             /\ inv q' (tl l).
Proof.
  intros HI HB. unfold qFirst. rewrite (empty_inv _ _ HI).
  rewrite !Z.shiftl_mul_pow2 by lia. change (2 ^ 2) with 4. change (2 ^ 1) with 2.
  destruct l as [|x l].
  { simpl. eexists; split; eauto. }
  destruct HI as (k & Hk & Hs & Hit & Hh & Ht & Hl & HG).
  pose proof (pow_pos k Hk). pose proof (zlen_nonneg l).
  rewrite zlen_cons in *. simpl tl.
  destruct (Z.eqb_spec (zlen l + 1) 0); [lia|].
  rewrite (zget_Some _ _ zero) by lia. simpl.
  assert (HX : nth (Z.to_nat (qhead q)) (qitems q) zero = x).
  { specialize (HG 0). rewrite Z.add_0_r, Z.mod_small in HG by lia. apply HG. lia. }
  rewrite HX. rewrite zset_Some by lia. simpl.
  rewrite Hs, land_mask by lia.
  set (h := (qhead q + 1) mod 2 ^ k).
  assert (Hhb : 0 <= h < 2 ^ k) by (apply Z.mod_pos_bound; lia).
  assert (HT : qtail q = (h + zlen l) mod 2 ^ k).
  { rewrite Ht. unfold h. rewrite Z.add_mod_idemp_l by lia. f_equal. lia. }
  assert (Htb : 0 <= qtail q < 2 ^ k) by (rewrite Ht; apply Z.mod_pos_bound; lia).
  set (it := upd (qitems q) (Z.to_nat (qhead q)) zero).
  assert (HG' : forall i, 0 <= i < 2 ^ k -> g it ((h + i) mod 2 ^ k) = g l i).
  { intros i Hi. unfold it. assert (0 <= (h + i) mod 2 ^ k) by (apply Z.mod_pos_bound; lia).
    rewrite g_upd by lia.
    replace ((h + i) mod 2 ^ k) with ((qhead q + (i + 1)) mod 2 ^ k) in *
      by (unfold h; rewrite Z.add_mod_idemp_l by lia; f_equal; lia).
    destruct (Z.eq_dec i (2 ^ k - 1)).
    - subst i. replace (qhead q + (2 ^ k - 1 + 1)) with (qhead q + 1 * 2 ^ k) by lia.
      rewrite Z.mod_add, Z.mod_small, Z.eqb_refl by lia. symmetry. apply g_over. lia.
    - rewrite HG by lia. rewrite g_cons by lia.
      destruct (Z.eqb_spec (i + 1) 0); [lia|].
      destruct (Z.eqb_spec ((qhead q + (i + 1)) mod 2 ^ k) (qhead q)).
      + exfalso. modc (qhead q + (i + 1)) (2 ^ k); lia.
      + f_equal. lia. }
  destruct (Z.eqb_spec h 0); simpl.
  2:{ eexists; split; [reflexivity|]. exists k. simpl. repeat split; auto; try lia.
      unfold it. rewrite zlen_upd; lia. }
  destruct (Z.ltb_spec minSize (2 ^ k - 1)); simpl.
  2:{ eexists; split; [reflexivity|]. exists k. simpl. repeat split; auto; try lia.
      unfold it. rewrite zlen_upd; lia. }
  destruct (Z.leb_spec (qtail q * 4) (2 ^ k - 1)).
  2:{ eexists; split; [reflexivity|]. exists k. simpl. repeat split; auto; try lia.
      unfold it. rewrite zlen_upd; lia. }
  assert (HTl : qtail q = zlen l) by (rewrite HT, e; rewrite Z.mod_small; lia).
  destruct (computeSize_spec (qtail q * 2)) as (k' & Hk' & HC & HL); [lia|].
  rewrite HC. pose proof (pow_pos k' Hk').
  destruct (zmake zero (2 ^ k' - 1 + 1)) as [a|] eqn:Ea; [|rewrite zmake_Some in Ea by lia; discriminate].
  simpl. pose proof (fun i => g_make _ i _ Ea) as Ha.
  assert (Hal : zlen a = 2 ^ k') by (destruct (Ha 0); lia).
  assert (Hitl : zlen it = 2 ^ k) by (unfold it; rewrite zlen_upd; lia).
  destruct (zslice it 0 (qtail q)) as [s|] eqn:Es.
  2:{ rewrite zslice_Some in Es; [discriminate|lia|lia]. }
  simpl. pose proof (fun i => g_slice _ _ _ i _ Es) as Hsl.
  destruct (zcopy_total a 0 s) as [a' Ea']; [lia|]. rewrite Ea'. simpl.
  pose proof (fun i => g_copy _ _ _ i _ Ea') as Ha'.
  eexists; split; [reflexivity|]. exists k'. simpl.
  repeat split; auto; try lia.
  - destruct (Ha' 0); lia.
  - rewrite e, HTl. rewrite Z.mod_small; lia.
  - intros i Hi. rewrite e. simpl. rewrite Z.mod_small by lia.
    destruct (Ha' i) as [_ ->]; [lia|]. destruct (Hsl i) as [Hsn _]; [lia|]. rewrite Hsn.
    destruct (Z.leb_spec 0 i); [|lia]. destruct (Z.ltb_spec i (zlen a)); [|lia].
    destruct (Z.ltb_spec i (0 + (qtail q - 0))); simpl.
    + destruct (Hsl (i - 0)) as [_ ->]; [lia|].
      destruct (Z.ltb_spec (i - 0) (qtail q - 0)); [|lia].
      rewrite <- (HG' i) by lia. f_equal. rewrite e. rewrite Z.mod_small; lia.
    + rewrite (g_over l) by lia. apply Ha.
Qed.

Lemma last_inv q l x : inv q (l ++ [x]) ->
  exists q', qLast zero q = Some (q', Some x) /\ inv q' l.
Proof.
  intros HI. unfold qLast. rewrite (empty_inv _ _ HI).
  destruct HI as (k & Hk & Hs & Hit & Hh & Ht & Hl & HG).
  pose proof (pow_pos k Hk). pose proof (zlen_nonneg l).
  assert (HLA : zlen (l ++ [x]) = zlen l + 1) by (rewrite zlen_app; reflexivity).
  rewrite HLA in *. destruct (Z.eqb_spec (zlen l + 1) 0); [lia|].
  rewrite Hs, land_mask by lia.
  set (t := (qtail q - 1) mod 2 ^ k).
  assert (Htb : 0 <= t < 2 ^ k) by (apply Z.mod_pos_bound; lia).
  assert (HT : t = (qhead q + zlen l) mod 2 ^ k).
  { unfold t. rewrite Ht. rewrite Zminus_mod_idemp_l. f_equal. lia. }
  rewrite (zget_Some _ _ zero) by lia. simpl. rewrite zset_Some by lia. simpl.
  assert (HX : nth (Z.to_nat t) (qitems q) zero = x).
  { specialize (HG (zlen l)). rewrite <- HT in HG. unfold g at 1 in HG. rewrite HG by lia.
    rewrite g_app by lia. destruct (Z.ltb_spec (zlen l) (zlen l)); [lia|].
    rewrite Z.sub_diag. reflexivity. }
  rewrite HX. eexists; split; [reflexivity|].
  exists k. simpl. repeat split; auto; try lia.
  - rewrite zlen_upd; lia.
  - intros i Hi. assert (0 <= (qhead q + i) mod 2 ^ k) by (apply Z.mod_pos_bound; lia).
    rewrite g_upd by lia. rewrite HT.
    destruct (Z.eqb_spec ((qhead q + i) mod 2 ^ k) ((qhead q + zlen l) mod 2 ^ k)).
    + destruct (Z.eq_dec i (zlen l)).
      * symmetry; apply g_over; lia.
      * exfalso. modc (qhead q + i) (2 ^ k); modc (qhead q + zlen l) (2 ^ k); lia.
    + rewrite HG by lia. rewrite g_app by lia.
      destruct (Z.ltb_spec i (zlen l)); auto.
      rewrite (g_over l) by lia.
      destruct (Z.eq_dec i (zlen l)); [subst; congruence|].
      apply g_over. change (zlen [x]) with 1. lia.
Qed.

Lemma last_inv_empty q : inv q [] -> qLast zero q = Some (q, None).
Proof. intros HI. unfold qLast. rewrite (empty_inv _ _ HI). reflexivity. Qed.

End Queue.
