(** C03, C04: internal/ints. *)
From Coq Require Import ZArith NArith List Lia Bool Sorted.
From Verif Require Import Base BaseProofs IntSet IntSetProofs IntSetSpec.
Import ListNotations.
Open Scope Z_scope.

Definition rep (s : iset) (p : zset) : Prop := wf s /\ forall x, mem s x = p x.

Lemma F2_nth {A B} (R : A -> B -> Prop) l l' : Forall2 R l l' ->
  forall i, match nth_error l i, nth_error l' i with
            | Some a, Some b => R a b | None, None => True | _, _ => False end.
Proof. induction 1; intros [|i]; simpl; auto. apply IHForall2. Qed.

Lemma F2_upd {A B} (R : A -> B -> Prop) l l' a b : Forall2 R l l' -> R a b ->
  forall i, Forall2 R (upd l i a) (upd l' i b).
Proof. induction 1; intros HR i; simpl; auto. destruct i; constructor; auto. Qed.

Lemma F2_snoc {A B} (R : A -> B -> Prop) l l' a b : Forall2 R l l' -> R a b ->
  Forall2 R (l ++ [a]) (l' ++ [b]).
Proof. intros. apply Forall2_app; auto. Qed.

Lemma step_rep st mt o : Forall2 rep st mt ->
  exists st', model_step st o = Some st' /\ Forall2 rep st' (math_step mt o).
Proof.
  intros HF. pose proof (F2_nth rep st mt HF) as HN.
  destruct o as [items|i|i j|i j|i j|i items|i items|i j|i j|i j]; cbn [model_step math_step].
  - destruct (newSet_spec items) as (s & -> & W & M). cbn [obind]. eexists; split; [reflexivity|].
    apply F2_snoc; auto. split; auto.
  - specialize (HN i). destruct (nth_error st i), (nth_error mt i); try contradiction; try (eexists; split; [reflexivity|assumption]).
    cbn [obind]. eexists; split; [reflexivity|]. apply F2_snoc; auto.
  - pose proof (HN i) as Hi. specialize (HN j). destruct (nth_error st i), (nth_error mt i); try contradiction; try (eexists; split; [reflexivity|assumption]).
    destruct (nth_error st j), (nth_error mt j); try contradiction; try (eexists; split; [reflexivity|assumption]).
    destruct Hi as [W1 M1], HN as [W2 M2]. destruct (union_spec i0 i1 W1 W2) as (r & -> & W & M).
    cbn [obind]. eexists; split; [reflexivity|]. apply F2_snoc; auto. split; auto. intros x. rewrite M, M1, M2. auto.
  - pose proof (HN i) as Hi. specialize (HN j). destruct (nth_error st i), (nth_error mt i); try contradiction; try (eexists; split; [reflexivity|assumption]).
    destruct (nth_error st j), (nth_error mt j); try contradiction; try (eexists; split; [reflexivity|assumption]).
    destruct Hi as [W1 M1], HN as [W2 M2]. destruct (intersect_spec i0 i1 W1 W2) as (r & -> & W & M).
    cbn [obind]. eexists; split; [reflexivity|]. apply F2_snoc; auto. split; auto. intros x. rewrite M, M1, M2. auto.
  - pose proof (HN i) as Hi. specialize (HN j). destruct (nth_error st i), (nth_error mt i); try contradiction; try (eexists; split; [reflexivity|assumption]).
    destruct (nth_error st j), (nth_error mt j); try contradiction; try (eexists; split; [reflexivity|assumption]).
    destruct Hi as [W1 M1], HN as [W2 M2]. destruct (subtract_spec i0 i1 W1 W2) as (r & -> & W & M).
    cbn [obind]. eexists; split; [reflexivity|]. apply F2_snoc; auto. split; auto. intros x. rewrite M, M1, M2. auto.
  - specialize (HN i). destruct (nth_error st i), (nth_error mt i); try contradiction; try (eexists; split; [reflexivity|assumption]).
    destruct HN as [W1 M1]. destruct (addRemove_spec i0 items false W1) as (r & E & W & M). unfold setAdd. rewrite E.
    cbn [obind]. eexists; split; [reflexivity|]. apply F2_upd; auto. split; auto. intros x. rewrite M, M1.
    unfold zitems, inb. destruct (existsb (Z.eqb x) items); auto.
  - specialize (HN i). destruct (nth_error st i), (nth_error mt i); try contradiction; try (eexists; split; [reflexivity|assumption]).
    destruct HN as [W1 M1]. destruct (addRemove_spec i0 items true W1) as (r & E & W & M). unfold setRemove. rewrite E.
    cbn [obind]. eexists; split; [reflexivity|]. apply F2_upd; auto. split; auto. intros x. rewrite M, M1.
    unfold zitems, inb. destruct (existsb (Z.eqb x) items); auto.
  - pose proof (HN i) as Hi. specialize (HN j). destruct (nth_error st i), (nth_error mt i); try contradiction; try (eexists; split; [reflexivity|assumption]).
    destruct (nth_error st j), (nth_error mt j); try contradiction; try (eexists; split; [reflexivity|assumption]).
    destruct Hi as [W1 M1], HN as [W2 M2]. destruct (union_spec i0 i1 W1 W2) as (r & -> & W & M).
    cbn [obind]. eexists; split; [reflexivity|]. apply F2_upd; auto. split; auto. intros x. rewrite M, M1, M2. auto.
  - pose proof (HN i) as Hi. specialize (HN j). destruct (nth_error st i), (nth_error mt i); try contradiction; try (eexists; split; [reflexivity|assumption]).
    destruct (nth_error st j), (nth_error mt j); try contradiction; try (eexists; split; [reflexivity|assumption]).
    destruct Hi as [W1 M1], HN as [W2 M2]. destruct (intersect_spec i0 i1 W1 W2) as (r & -> & W & M).
    cbn [obind]. eexists; split; [reflexivity|]. apply F2_upd; auto. split; auto. intros x. rewrite M, M1, M2. auto.
  - pose proof (HN i) as Hi. specialize (HN j). destruct (nth_error st i), (nth_error mt i); try contradiction; try (eexists; split; [reflexivity|assumption]).
    destruct (nth_error st j), (nth_error mt j); try contradiction; try (eexists; split; [reflexivity|assumption]).
    destruct Hi as [W1 M1], HN as [W2 M2]. destruct (subtract_spec i0 i1 W1 W2) as (r & -> & W & M).
    cbn [obind]. eexists; split; [reflexivity|]. apply F2_upd; auto. split; auto. intros x. rewrite M, M1, M2. auto.
Qed.

Lemma run_rep ops : exists st, model_run ops = Some st /\ Forall2 rep st (math_run ops).
Proof.
  unfold model_run, math_run.
  assert (G : forall ops st mt, Forall2 rep st mt -> exists st',
     fold_left (fun st o => do s <- st; model_step s o) ops (Some st) = Some st' /\
     Forall2 rep st' (fold_left math_step ops mt)).
  { clear. induction ops as [|o r IH]; intros st mt H; cbn [fold_left]; eauto.
    destruct (step_rep st mt o H) as (st1 & E & H1). cbn [obind]. rewrite E. apply IH; auto. }
  apply G. constructor.
Qed.

(** C03.  No history panics, and Contains on each variable agrees with the
    mathematical set computed by the same history.  (The function forms appear
    in the history too: that they leave their arguments alone is part of the
    statement, since the arguments' variables must still agree afterwards.) *)
Theorem intset_contains_correct :
  forall (ops : list setop),
  exists st, model_run ops = Some st /\ length st = length (math_run ops) /\
    forall i s p, nth_error st i = Some s -> nth_error (math_run ops) i = Some p ->
    forall x, setContains s x = Some (p x).
Proof.
  intros ops. destruct (run_rep ops) as (st & E & H). exists st. split; auto.
  split; [clear E; induction H; simpl; auto|].
  intros i s p Hs Hp x. pose proof (F2_nth rep _ _ H i) as HN. rewrite Hs, Hp in HN.
  destruct HN as [W M]. rewrite contains_spec, M; auto.
Qed.
Print Assumptions intset_contains_correct.

(** C04.  ToSlice is the strictly increasing list of the members; IsEmpty and
    IsEqual decide emptiness and equality of the mathematical sets. *)
Theorem intset_enumeration_correct :
  forall (ops : list setop) st i s p,
  model_run ops = Some st ->
  nth_error st i = Some s -> nth_error (math_run ops) i = Some p ->
  (exists l, toSlice s = Some l /\ StronglySorted Z.lt l /\ forall x, In x l <-> p x = true) /\
  (setIsEmpty s = true <-> forall x, p x = false) /\
  (forall j t p', nth_error st j = Some t -> nth_error (math_run ops) j = Some p' ->
     exists b, setIsEqual s t = Some b /\ (b = true <-> forall x, p x = p' x)).
Proof.
  intros ops st i s p E Hs Hp. destruct (run_rep ops) as (st' & E' & H). rewrite E in E'. injection E' as <-.
  pose proof (F2_nth rep _ _ H i) as HN. rewrite Hs, Hp in HN. destruct HN as [W M].
  split; [|split].
  - destruct (toSlice_spec s W) as (l & El & Sl & Il). exists l. split; auto. split; auto.
    intros x. rewrite Il, M. tauto.
  - rewrite isEmpty_spec by auto. split; intros G x; specialize (G x); pose proof (M x); congruence.
  - intros j t p' Ht Hp'. pose proof (F2_nth rep _ _ H j) as HN. rewrite Ht, Hp' in HN. destruct HN as [W' M'].
    destruct (isEqual_spec s t W W') as (b & Eb & Hb). exists b. split; auto. rewrite Hb.
    split; intros G x; specialize (G x); pose proof (M x); pose proof (M' x); congruence.
Qed.
Print Assumptions intset_enumeration_correct.

(** Non-vacuity: negative items, sets of different ranges, aliasing of the
    receiver with its argument. *)
Definition demo : list setop :=
  [SNew [5; -70; 200]; SNew []; SAddM 1 [64; 5]; SUnionF 0 1; SSubtractF 0 1; SIntersectM 0 2;
   SRemoveM 2 [-1000]; SUnionM 3 3; SCopyOf 3; SRemoveM 4 [200]].
Example demo_ok :
  match model_run demo with
  | Some st => map toSlice st = [Some [-70; 5; 200]; Some [5; 64]; Some [-70; 5; 64; 200];
                                 Some [-70; 200]; Some [-70]]
  | None => False end.
Proof. vm_compute. reflexivity. Qed.
