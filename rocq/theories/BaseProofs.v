(** Lemmas about the slice helpers of [Base]. *)
From Coq Require Import ZArith List Lia Bool.
From Verif Require Import Base.
Import ListNotations.
Open Scope Z_scope.

Section L.
Context {A : Type}.
Implicit Types l : list A.

Lemma upd_length l n x : length (upd l n x) = length l.
Proof. revert n; induction l; destruct n; simpl; auto. Qed.

Lemma nth_upd l n m x d :
  (n < length l)%nat ->
  nth m (upd l n x) d = if Nat.eqb m n then x else nth m l d.
Proof.
  revert n m; induction l; intros n m H; simpl in H; [lia|].
  destruct n, m; simpl; auto. rewrite IHl by lia. reflexivity.
Qed.

Lemma nth_error_upd l n m x :
  (n < length l)%nat ->
  nth_error (upd l n x) m = if Nat.eqb m n then Some x else nth_error l m.
Proof.
  revert n m; induction l; intros n m H; simpl in H; [lia|].
  destruct n, m; simpl; auto. rewrite IHl by lia. reflexivity.
Qed.

Lemma zlen_nonneg l : 0 <= zlen l.
Proof. unfold zlen; lia. Qed.

Lemma zget_Some l i d :
  0 <= i < zlen l -> zget l i = Some (nth (Z.to_nat i) l d).
Proof.
  unfold zget, zlen; intros. destruct (Z.ltb_spec i 0); [lia|].
  apply nth_error_nth'. lia.
Qed.

Lemma zget_None l i : i < 0 \/ zlen l <= i -> zget l i = None.
Proof.
  unfold zget, zlen; intros. destruct (Z.ltb_spec i 0); auto.
  apply nth_error_None. lia.
Qed.

Lemma zget_Some_inv l i x : zget l i = Some x -> 0 <= i < zlen l.
Proof.
  unfold zget, zlen; intros. destruct (Z.ltb_spec i 0); [discriminate|].
  assert (nth_error l (Z.to_nat i) <> None) by congruence.
  apply nth_error_Some in H1. lia.
Qed.

Lemma zset_Some l i x :
  0 <= i < zlen l -> zset l i x = Some (upd l (Z.to_nat i) x).
Proof.
  unfold zset; intros.
  destruct (Z.leb_spec 0 i); [|lia]. destruct (Z.ltb_spec i (zlen l)); [|lia]. reflexivity.
Qed.

Lemma zset_inv l i x l' :
  zset l i x = Some l' -> 0 <= i < zlen l /\ l' = upd l (Z.to_nat i) x.
Proof.
  unfold zset; intros.
  destruct (Z.leb_spec 0 i); [|discriminate]. destruct (Z.ltb_spec i (zlen l)); [|discriminate].
  simpl in H. injection H; auto with zarith.
Qed.

Lemma zslice_Some l a b :
  0 <= a <= b -> b <= zlen l ->
  zslice l a b = Some (firstn (Z.to_nat (b - a)) (skipn (Z.to_nat a) l)).
Proof.
  unfold zslice; intros.
  destruct (Z.leb_spec 0 a); [|lia]. destruct (Z.leb_spec a b); [|lia].
  destruct (Z.leb_spec b (zlen l)); [|lia]. reflexivity.
Qed.

Lemma zcopy_Some l off src :
  0 <= off <= zlen l ->
  zcopy l off src = Some (firstn (Z.to_nat off) l
             ++ firstn (length l - Z.to_nat off) src
             ++ skipn (Z.to_nat off + length src) l).
Proof.
  unfold zcopy; intros.
  destruct (Z.leb_spec 0 off); [|lia]. destruct (Z.leb_spec off (zlen l)); [|lia]. reflexivity.
Qed.

Lemma nth_skipn l n m d : nth m (skipn n l) d = nth (n + m) l d.
Proof.
  revert l; induction n; intros; simpl; auto.
  destruct l; simpl; auto. destruct m; auto.
Qed.

Lemma nth_firstn l n m d : (m < n)%nat -> nth m (firstn n l) d = nth m l d.
Proof.
  revert l m; induction n; intros; [lia|].
  destruct l; simpl; auto. destruct m; auto. apply IHn; lia.
Qed.

Lemma zcopy_nth l off src r i d :
  zcopy l off src = Some r ->
  length r = length l /\
  nth i r d =
   if Nat.ltb i (Z.to_nat off) then nth i l d
   else if Nat.ltb i (Z.to_nat off + length src) && Nat.ltb i (length l)
        then nth (i - Z.to_nat off) src d
        else nth i l d.
Proof.
  unfold zcopy, zlen. intros H.
  destruct (Z.leb_spec 0 off); [|discriminate].
  destruct (Z.leb_spec off (Z.of_nat (length l))); [|discriminate].
  simpl in H. injection H as <-.
  set (o := Z.to_nat off) in *.
  assert (o <= length l)%nat by lia.
  assert (L1 : length (firstn o l) = o) by (rewrite firstn_length; lia).
  split.
  - rewrite !app_length, firstn_length, firstn_length, skipn_length. lia.
  - destruct (Nat.ltb_spec i o).
    + rewrite app_nth1 by lia. rewrite nth_firstn by lia. reflexivity.
    + rewrite app_nth2 by lia. rewrite L1.
      assert (L2 : length (firstn (length l - o) src) = Nat.min (length l - o) (length src))
        by apply firstn_length.
      destruct (Nat.ltb_spec i (o + length src)); simpl.
      * destruct (Nat.ltb_spec i (length l)).
        -- rewrite app_nth1 by lia. rewrite nth_firstn by lia. reflexivity.
        -- rewrite app_nth2 by lia. rewrite nth_skipn. rewrite !nth_overflow by lia. reflexivity.
      * rewrite app_nth2 by lia. rewrite nth_skipn. rewrite L2.
        destruct (Nat.le_gt_cases (length l - o) (length src)).
        -- rewrite !nth_overflow by lia. reflexivity.
        -- f_equal. lia.
Qed.

Lemma zcopy_total l off src : 0 <= off <= zlen l -> exists r, zcopy l off src = Some r.
Proof. intros; rewrite zcopy_Some by auto; eauto. Qed.

Lemma zmake_Some (z : A) n : 0 <= n -> zmake z n = Some (repeat z (Z.to_nat n)).
Proof. unfold zmake; intros. destruct (Z.ltb_spec n 0); [lia|reflexivity]. Qed.

Lemma nth_repeat_any (z : A) n i : nth i (repeat z n) z = z.
Proof. revert i; induction n; destruct i; simpl; auto. Qed.

Lemma nth_ext_Z l l' d :
  length l = length l' ->
  (forall i, 0 <= i < zlen l -> nth (Z.to_nat i) l d = nth (Z.to_nat i) l' d) ->
  l = l'.
Proof.
  intros HL H. apply (nth_ext _ _ d d HL). intros n Hn.
  specialize (H (Z.of_nat n)). rewrite Nat2Z.id in H. apply H. unfold zlen; lia.
Qed.

End L.
