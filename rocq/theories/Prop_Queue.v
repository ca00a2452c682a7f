(** C01, C02: internal/queue. *)
From Coq Require Import ZArith List Lia Bool Permutation.
From Verif Require Import Base BaseProofs Queue QueueProofs QueueSpec.
Import ListNotations.
Open Scope Z_scope.

Section P.
Context {T : Type} (zero : T).

Lemma step_sound q l o :
  inv zero q l -> Z.of_nat (length l) < 2 ^ 31 ->
  Z.of_nat (length (fst (list_step l o))) < 2 ^ 31 ->
  exists q', queue_step zero q o = Some (q', snd (list_step l o)) /\
             inv zero q' (fst (list_step l o)).
Proof.
  intros HI HB HB2. destruct o; cbn [list_step queue_step fst snd] in *.
  - destruct (append_inv zero q l x HI) as (q' & -> & H); simpl; eauto.
  - destruct (prepend_inv zero q l x HI) as (q' & -> & H); simpl; eauto.
  - destruct (fill_inv zero xs) as (q' & -> & H); simpl; eauto. unfold zlen; lia.
  - unfold qClear. destruct (fill_inv zero []) as (q' & -> & H); simpl; eauto.
  - destruct (first_inv zero q l HI) as (q' & -> & H); [unfold zlen; lia|]. simpl.
    destruct l; simpl; eauto.
  - destruct l as [|x l _] using rev_ind.
    + rewrite last_inv_empty by auto. simpl. eauto.
    + destruct (last_inv zero q l x HI) as (q' & -> & H). simpl.
      rewrite rev_app_distr, removelast_last. simpl. eauto.
  - rewrite (peek_inv zero q l i HI). simpl. eexists; split; [|eassumption].
    do 3 f_equal. unfold zlen. destruct (Z.ltb_spec i 0).
    + destruct (Z.leb_spec 0 i); [lia|].
      destruct (Z.leb_spec (- Z.of_nat (length l)) i).
      * destruct (Z.ltb_spec (i + Z.of_nat (length l)) 0); [lia|].
        destruct (Z.leb_spec (Z.of_nat (length l)) (i + Z.of_nat (length l))); [lia|].
        simpl. symmetry. unfold g.
        replace (Z.to_nat (i + Z.of_nat (length l))) with (length l - Z.to_nat (- i))%nat by lia.
        apply nth_error_nth'. lia.
      * destruct (Z.ltb_spec (i + Z.of_nat (length l)) 0); [|lia]. reflexivity.
    + destruct (Z.leb_spec 0 i); [|lia]. destruct (Z.ltb_spec i 0); [lia|]. cbn [orb].
      destruct (Z.leb_spec (Z.of_nat (length l)) i); simpl.
      * symmetry. apply nth_error_None. lia.
      * symmetry. apply nth_error_nth'. lia.
  - rewrite (items_inv zero q l HI). simpl. eauto.
  - rewrite (len_inv zero q l HI). eauto.
  - unfold qIsEmpty. rewrite (empty_inv zero q l HI). eexists; split; [|eassumption].
    do 3 f_equal. destruct l; reflexivity.
Qed.

Lemma run_sound ops : forall q l,
  inv zero q l -> bounded l ops ->
  exists q', queue_run zero q ops = Some (q', snd (list_run l ops)) /\
             inv zero q' (fst (list_run l ops)).
Proof.
  induction ops as [|o r IH]; intros q l HI HB; simpl in *.
  - eauto.
  - destruct HB as [HB HR].
    destruct (step_sound q l o HI HB) as (q1 & -> & H1).
    { destruct r; simpl in HR; tauto. }
    destruct (IH q1 _ H1 HR) as (q2 & E2 & H2). simpl. rewrite E2. simpl.
    destruct (list_step l o) as [l1 a]. simpl in *.
    destruct (list_run l1 r) as [l2 b]. simpl in *. eauto.
Qed.

Lemma new_inv l : Z.of_nat (length l) < 2 ^ 31 -> exists q, qNew zero l = Some q /\ inv zero q l.
Proof. intros. apply fill_inv. unfold zlen. lia. Qed.

Lemma nonzero_count (eqb : T -> T -> bool) :
  (forall x y, eqb x y = true <-> x = y) ->
  forall q l, inv zero q l ->
  nonzero_slots eqb zero q = length (filter (fun x => negb (eqb x zero)) l).
Proof.
  intros He q l (k & Hk & Hs & Hit & Hh & Ht & Hl & HG).
  pose proof (pow_pos k Hk). unfold nonzero_slots.
  set (f := fun x => negb (eqb x zero)).
  set (n := Z.to_nat (2 ^ k)). set (h := Z.to_nat (qhead q)).
  assert (Hn : length (qitems q) = n) by (unfold zlen, n in *; lia).
  (* rotate the storage so that it starts at head *)
  assert (HR : skipn h (qitems q) ++ firstn h (qitems q) =
               l ++ repeat zero (n - length l)).
  { apply (nth_ext _ _ zero zero).
    - rewrite !app_length, skipn_length, firstn_length, repeat_length.
      unfold n, zlen, h in *. lia.
    - intros i Hi. rewrite app_length, skipn_length, firstn_length in Hi.
      assert (i < n)%nat by lia.
      transitivity (g zero (qitems q) ((qhead q + Z.of_nat i) mod 2 ^ k)).
      + unfold g. modc (qhead q + Z.of_nat i) (2 ^ k).
        * rewrite app_nth1 by (rewrite skipn_length; unfold h, n in *; lia).
          rewrite nth_skipn. f_equal. unfold h. lia.
        * rewrite app_nth2 by (rewrite skipn_length; unfold h, n in *; lia).
          rewrite nth_firstn by (rewrite skipn_length; unfold h, n in *; lia).
          rewrite skipn_length. f_equal. unfold h, n in *. lia.
      + rewrite HG by (unfold n in *; lia). unfold g. rewrite Nat2Z.id.
        destruct (Nat.lt_ge_cases i (length l)).
        * rewrite app_nth1 by lia. reflexivity.
        * rewrite app_nth2 by lia. rewrite nth_repeat_any. apply nth_overflow. lia. }
  assert (HF0 : filter f (repeat zero (n - length l)) = []).
  { clear HR. induction (n - length l)%nat as [|m IHn0]; simpl; auto. unfold f at 1.
    replace (eqb zero zero) with true by (symmetry; apply He; auto). simpl. exact IHn0. }
  transitivity (length (filter f (skipn h (qitems q) ++ firstn h (qitems q)))).
  - rewrite <- (firstn_skipn h (qitems q)) at 1.
    rewrite !filter_app, !app_length. lia.
  - rewrite HR, filter_app, HF0, app_nil_r. reflexivity.
Qed.

End P.

(** C01.  For every element type, initial items and history of calls that never
    holds 2^31 items, no call panics and every answer is the list's answer. *)
Theorem queue_refines_list :
  forall (T : Type) (zero : T) (init : list T) (ops : list (qop T)),
  bounded init ops ->
  exists q q',
    qNew zero init = Some q /\
    queue_run zero q ops = Some (q', snd (list_run init ops)) /\
    qItems zero q' = Some (fst (list_run init ops)).
Proof.
  intros T zero init ops HB.
  assert (Z.of_nat (length init) < 2 ^ 31) by (destruct ops; simpl in HB; tauto).
  destruct (new_inv zero init H) as (q & E & HI).
  destruct (run_sound zero ops q init HI HB) as (q' & ER & HI').
  exists q, q'. repeat split; auto. apply items_inv; auto.
Qed.
Print Assumptions queue_refines_list.

(** C02.  After any such history, the storage contains exactly as many non-zero
    slots as there are non-zero live items: nothing removed is retained. *)
Theorem queue_retains_nothing :
  forall (T : Type) (eqb : T -> T -> bool) (zero : T) (init : list T) (ops : list (qop T)) q q' outs,
  (forall x y, eqb x y = true <-> x = y) ->
  bounded init ops ->
  qNew zero init = Some q ->
  queue_run zero q ops = Some (q', outs) ->
  nonzero_slots eqb zero q' =
  length (filter (fun x => negb (eqb x zero)) (fst (list_run init ops))).
Proof.
  intros T eqb zero init ops q q' outs He HB HN HR.
  assert (Z.of_nat (length init) < 2 ^ 31) by (destruct ops; simpl in HB; tauto).
  destruct (new_inv zero init H) as (q0 & E & HI).
  rewrite HN in E. injection E as <-.
  destruct (run_sound zero ops q init HI HB) as (q1 & ER & HI').
  rewrite HR in ER. injection ER as -> _. eapply nonzero_count; eauto.
Qed.
Print Assumptions queue_retains_nothing.

(** Non-vacuity: a history that grows (wrapped), shrinks and empties the ring. *)
Definition demo_ops : list (qop Z) :=
  [OpPrepend 1; OpPrepend 2; OpAppend 3; OpAppend 4; OpAppend 5; OpLast; OpPeek (-1);
   OpFirst; OpFirst; OpFirst; OpItems; OpPrepend 9; OpFill [1;2;3;4;5;6;7;8;9];
   OpFirst; OpFirst; OpLen; OpClear; OpFirst; OpIsEmpty].
Example demo_bounded : bounded [7] demo_ops.
Proof. vm_compute. repeat split; reflexivity. Qed.
Example demo_run : exists q q',
  qNew 0 [7] = Some q /\ queue_run 0 q demo_ops = Some (q', snd (list_run [7] demo_ops)) /\
  snd (list_run [7] demo_ops) =
   [RUnit; RUnit; RUnit; RUnit; RUnit; RVal (Some 5); RVal (Some 4); RVal (Some 2); RVal (Some 1);
    RVal (Some 7); RList [3;4]; RUnit; RUnit; RVal (Some 1); RVal (Some 2); RInt 7; RUnit;
    RVal None; RBool true].
Proof.
  destruct (queue_refines_list Z 0 [7] demo_ops demo_bounded) as (q & q' & A & B & _).
  exists q, q'. split; [exact A|]. split; [exact B|]. vm_compute. reflexivity.
Qed.

(** The bound is needed: with 2^32 items the size computed for the buffer is not
    a mask of ones (the smearing in computeSize covers 32 bits only). *)
Example computeSize_refuted_at_2_32 : Z.testbit (computeSize (2 ^ 32)) 0 = false.
Proof. reflexivity. Qed.
