(** C08, C09: the queue of sources. *)
From Coq Require Import ZArith List Lia Bool.
From Verif Require Import Base BaseProofs Queue QueueProofs QueueSpec Prop_Queue SourceQueue SourceQueueSpec.
Import ListNotations.
Open Scope Z_scope.

Section P.
Context {S : Type} (slen : S -> Z).
Hypothesis slen_nonneg : forall s, 0 <= slen s.

Definition toItem (x : S * Z) : qitem := (Some (fst x), snd x).

(** reachable abstract states: positions inside the content, only a lone source may be empty *)
Definition aOK (l : aq S) : Prop :=
  Forall (fun x => 0 <= snd x <= slen (fst x)) l /\
  (Forall (fun x => has_text slen x = true) l \/ length l = 1%nat).

Definition absq (q : squeue) (l : aq S) : Prop :=
  match l with
  | [] => scur q = None /\ spos q = 0 /\ inv qitem0 (sq q) []
  | (s, p) :: r => scur q = Some s /\ spos q = p /\ inv qitem0 (sq q) (map toItem r)
  end.

Definition absn (sn : snapshot) (l : aq S) : Prop :=
  match l with
  | [] => sn = mkSnap [] None 0
  | (s, p) :: r => sn = mkSnap (map toItem r) (Some s) p
  end.

Definition R (st : @squeue S * list snapshot) (a : aq S * list (aq S)) : Prop :=
  absq (fst st) (fst a) /\ aOK (fst a) /\ Forall2 absn (snd st) (snd a) /\
  Forall (fun l => aOK l /\ zlen l < 2 ^ 31) (snd a).

Lemma filter_all {A} (f : A -> bool) l : Forall (fun x => f x = true) l -> filter f l = l.
Proof. induction 1; simpl; auto. rewrite H, IHForall. reflexivity. Qed.

Lemma filter_OK l : aOK l -> Forall (fun x => 0 <= snd x <= slen (fst x)) (filter (has_text slen) l) /\
   Forall (fun x => has_text slen x = true) (filter (has_text slen) l).
Proof.
  intros [H _]. split.
  - apply Forall_forall. intros x Hx. apply filter_In in Hx as [Hx _].
    rewrite Forall_forall in H. auto.
  - apply Forall_forall. intros x Hx. apply filter_In in Hx as [_ Hx]. auto.
Qed.

Lemma append_OK l s : aOK l -> aOK (a_append slen l s).
Proof.
  intros H. destruct (filter_OK l H) as [F1 F2]. unfold a_append.
  pose proof (slen_nonneg s). destruct (has_text slen (s, 0)) eqn:E.
  - split; [|left]; apply Forall_app; split; auto; constructor; auto; simpl; lia.
  - destruct (filter (has_text slen) l); [|split; auto].
    split; [|right; auto]. constructor; auto. simpl; lia.
Qed.

Lemma prepend_OK l s : aOK l -> aOK (a_prepend slen l s).
Proof.
  intros H. destruct (filter_OK l H) as [F1 F2]. unfold a_prepend.
  pose proof (slen_nonneg s). destruct (has_text slen (s, 0)) eqn:E.
  - split; [|left]; constructor; auto; simpl; lia.
  - destruct (filter (has_text slen) l); [|split; auto].
    split; [|right; auto]. constructor; auto. simpl; lia.
Qed.

Lemma move_OK l f : aOK l -> aOK (a_move slen l f).
Proof.
  intros [H1 H2]. destruct l as [|(s, p) r]; [split; auto|]. cbn [a_move].
  inversion H1; subst. pose proof (slen_nonneg s). split.
  - constructor; auto. cbn [fst snd]. lia.
  - destruct H2 as [H2|H2]; [left|right; auto]. inversion H2; subst. constructor; auto.
Qed.

Lemma tl_OK l : aOK l -> aOK (tl l).
Proof.
  intros [H1 H2]. destruct l as [|x r]; [split; auto|]. cbn [tl]. inversion H1; subst.
  split; auto. left. destruct H2 as [H2|H2]; [inversion H2; auto|].
  destruct r; [constructor|discriminate].
Qed.

(** In a reachable queue the current source either has text, and then everything
    has, or is alone. *)
Lemma OK_cases s p r : aOK ((s, p) :: r) ->
  (slen s <> 0 /\ filter (has_text slen) ((s, p) :: r) = (s, p) :: r) \/
  (slen s = 0 /\ r = []).
Proof.
  intros [_ [H|H]].
  - left. split; [|apply filter_all; auto]. inversion H; subst. unfold has_text in H2. cbn [fst] in H2.
    destruct (Z.eqb_spec (slen s) 0); [discriminate|auto].
  - destruct r; [|discriminate]. destruct (Z.eqb_spec (slen s) 0); [right; auto|left].
    split; auto. simpl. unfold has_text. cbn [fst]. destruct (Z.eqb_spec (slen s) 0); [contradiction|]. reflexivity.
Qed.

Lemma step_ok st a o : R st a -> zlen (fst a) < 2 ^ 31 -> zlen (fst (fst (a_step slen a o))) < 2 ^ 31 ->
  exists st', sq_step slen st o = Some (st', snd (a_step slen a o)) /\ R st' (fst (a_step slen a o)).
Proof.
  intros (HA & HO & HS & HN) HB HB'. destruct st as [q snaps], a as [l asn]. cbn [fst snd] in *.
  destruct o; cbn [sq_step a_step] in *.
  - destruct s as [s|]; cbn [fst snd sqAppend].
    2:{ eexists; split; [reflexivity|]. repeat split; auto; apply HO. }
    pose proof (append_OK l s HO) as HO'.
    assert (HH : has_text slen (s, 0) = negb (slen s =? 0)) by reflexivity.
    destruct l as [|(c, p) r].
    + destruct HA as (A1 & A2 & A3). unfold curEmpty. rewrite A1. rewrite andb_false_r. cbn [obind].
      eexists; split; [reflexivity|]. split; [|split; [auto|split; auto]]. cbn [fst].
      assert (EA : a_append slen [] s = [(s, 0)]).
      { unfold a_append. cbn [filter]. destruct (has_text slen (s, 0)); reflexivity. }
      rewrite EA. repeat split; auto.
    + destruct HA as (A1 & A2 & A3). unfold curEmpty. rewrite A1.
      destruct (OK_cases c p r HO) as [(C1 & C2)|(C1 & ->)].
      * destruct (Z.eqb_spec (slen c) 0); [contradiction|]. cbn [negb]. rewrite andb_true_r.
        unfold a_append in *. rewrite C2, HH in *. destruct (Z.eqb_spec (slen s) 0); cbn [negb] in *.
        -- cbn [obind]. eexists; split; [reflexivity|]. repeat split; auto; apply HO.
        -- destruct (append_inv qitem0 (sq q) _ (Some s, 0) A3) as (i & -> & HI). cbn [obind].
           eexists; split; [reflexivity|]. split; [|split; [auto|split; auto]]. cbn [fst app absq scur spos sq].
           rewrite map_app. repeat split; auto.
      * rewrite C1. cbn [Z.eqb negb]. rewrite andb_false_r. cbn [obind].
        eexists; split; [reflexivity|]. split; [|split; [auto|split; auto]]. cbn [fst].
        assert (EA : a_append slen [(c, p)] s = [(s, 0)]).
        { unfold a_append. cbn [filter]. unfold has_text. cbn [fst]. rewrite C1. cbn [Z.eqb negb app].
          destruct (negb (slen s =? 0)); reflexivity. }
        rewrite EA. repeat split; auto.
  - destruct s as [s|]; cbn [fst snd sqPrepend].
    2:{ eexists; split; [reflexivity|]. repeat split; auto; apply HO. }
    pose proof (prepend_OK l s HO) as HO'.
    assert (HH : has_text slen (s, 0) = negb (slen s =? 0)) by reflexivity.
    destruct l as [|(c, p) r].
    + destruct HA as (A1 & A2 & A3). rewrite A1. rewrite andb_false_r. cbn [obind].
      eexists; split; [reflexivity|]. split; [|split; [auto|split; auto]]. cbn [fst].
      assert (EA : a_prepend slen [] s = [(s, 0)]).
      { unfold a_prepend. cbn [filter]. destruct (has_text slen (s, 0)); reflexivity. }
      rewrite EA. repeat split; auto.
    + destruct HA as (A1 & A2 & A3). rewrite A1. pose proof (slen_nonneg c).
      destruct (OK_cases c p r HO) as [(C1 & C2)|(C1 & ->)].
      * destruct (Z.ltb_spec 0 (slen c)); [|lia]. rewrite andb_true_r.
        unfold a_prepend in *. rewrite C2, HH in *. destruct (Z.eqb_spec (slen s) 0); cbn [negb] in *.
        -- cbn [obind]. eexists; split; [reflexivity|]. repeat split; auto; apply HO.
        -- destruct (prepend_inv qitem0 (sq q) _ (Some c, spos q) A3) as (i & -> & HI). cbn [obind].
           eexists; split; [reflexivity|]. split; [|split; [auto|split; auto]]. cbn [fst app absq scur spos sq].
           rewrite A2 in HI. repeat split; auto.
      * rewrite C1. change (0 <? 0) with false. rewrite andb_false_r. cbn [obind].
        eexists; split; [reflexivity|]. split; [|split; [auto|split; auto]]. cbn [fst].
        assert (EA : a_prepend slen [(c, p)] s = [(s, 0)]).
        { unfold a_prepend. cbn [filter]. unfold has_text. cbn [fst]. rewrite C1. cbn [Z.eqb negb app].
          destruct (negb (slen s =? 0)); reflexivity. }
        rewrite EA. repeat split; auto.
  - cbn [fst snd]. pose proof (tl_OK l HO) as HO'. unfold sqNextSource.
    destruct l as [|(c, p) r].
    + destruct HA as (A1 & A2 & A3).
      destruct (first_inv qitem0 (sq q) [] A3) as (i & -> & HI); [reflexivity|]. cbn [obind hd_error tl].
      eexists; split; [reflexivity|]. repeat split; auto; apply HO.
    + destruct HA as (A1 & A2 & A3).
      destruct (first_inv qitem0 (sq q) _ A3) as (i & -> & HI).
      { unfold zlen in *. rewrite map_length. cbn [length] in HB. lia. }
      cbn [obind tl] in *. destruct r as [|(c2, p2) r]; cbn [map hd_error tl] in *.
      * eexists; split; [reflexivity|]. repeat split; auto; apply HO'.
      * eexists; split; [reflexivity|]. repeat split; auto; apply HO'.
  - cbn [fst snd]. pose proof (move_OK l (fun p => p + Z.max 0 n) HO) as HO'. unfold sqSkip.
    eexists; split; [reflexivity|]. split; [|split; [auto|split; auto]]. cbn [fst].
    destruct l as [|(c, p) r]; cbn [absq a_move] in *; destruct HA as (A1 & A2 & A3); rewrite A1; auto.
    destruct HO as [HF _]. inversion HF; subst. cbn [fst snd] in *.
    destruct (Z.leb_spec n 0).
    + repeat split; auto. lia.
    + cbn [scur spos sq]. repeat split; auto. destruct (Z.leb_spec (slen c) (spos q + n)); lia.
  - cbn [fst snd]. pose proof (move_OK l (fun p => p - Z.max 0 n) HO) as HO'. unfold sqRewind.
    eexists; split; [reflexivity|]. split; [|split; [auto|split; auto]]. cbn [fst].
    destruct l as [|(c, p) r]; cbn [absq a_move] in *; destruct HA as (A1 & A2 & A3); rewrite A1; auto.
    destruct HO as [HF _]. inversion HF; subst. cbn [fst snd] in *.
    destruct (Z.leb_spec n 0).
    + repeat split; auto. lia.
    + cbn [scur spos sq]. repeat split; auto. destruct (Z.leb_spec (spos q) n); lia.
  - cbn [fst snd]. pose proof (move_OK l (fun p => n) HO) as HO'. unfold sqSeek.
    eexists; split; [reflexivity|]. split; [|split; [auto|split; auto]]. cbn [fst].
    destruct l as [|(c, p) r]; cbn [absq a_move] in *; destruct HA as (A1 & A2 & A3); rewrite A1; auto.
    pose proof (slen_nonneg c). cbn [scur spos sq]. repeat split; auto.
    destruct (Z.leb_spec n 0); [lia|]. destruct (Z.ltb_spec (slen c) n); lia.
  - cbn [fst snd]. unfold sqSnapshot.
    destruct l as [|(c, p) r]; destruct HA as (A1 & A2 & A3).
    + rewrite (items_inv qitem0 (sq q) _ A3). cbn [obind].
      eexists; split; [reflexivity|]. split; [|split; [auto|split; auto]]; cbn [fst snd].
      * repeat split; auto.
      * constructor; auto. rewrite A1, A2. reflexivity.
      * constructor; auto.
    + rewrite (items_inv qitem0 (sq q) _ A3). cbn [obind].
      eexists; split; [reflexivity|]. split; [|split; [auto|split; auto]]; cbn [fst snd].
      * repeat split; auto.
      * constructor; auto. rewrite A1, A2. reflexivity.
      * constructor; auto.
  - cbn [fst snd] in *.
    destruct (nth_error snaps k) as [sn|] eqn:E.
    + assert (X : exists al, nth k asn l = al /\ absn sn al /\ aOK al /\ zlen al < 2 ^ 31).
      { clear -HS HN E. revert k E. induction HS; intros k E; [destruct k; discriminate|].
        inversion HN; subst. destruct k; cbn [nth_error nth] in *.
        - injection E as ->. exists y. tauto.
        - auto. }
      destruct X as (al & -> & X1 & X2 & X3). unfold sqRestore.
      destruct al as [|(c, p) r]; cbn [absn] in X1; subst sn; cbn [snItems snSource snPos].
      * destruct (fill_inv qitem0 (@nil (@qitem S))) as (i & -> & HI); [reflexivity|]. cbn [obind].
        eexists; split; [reflexivity|]. repeat split; auto; apply X2.
      * destruct (fill_inv qitem0 (map toItem r)) as (i & -> & HI).
        { unfold zlen in *. rewrite map_length. cbn [length] in X3. lia. }
        cbn [obind]. eexists; split; [reflexivity|]. repeat split; auto; apply X2.
    + eexists; split; [reflexivity|]. 
      assert (nth k asn l = l) as ->.
      { apply nth_overflow. apply nth_error_None in E.
        enough (length snaps = length asn) by lia. clear -HS. induction HS; simpl; auto. }
      repeat split; auto; apply HO.
  - cbn [fst snd]. exists (q, snaps); split; [|split; [exact HA|split; [exact HO|split; auto]]].
    do 2 f_equal. unfold sqIsEmpty, sqEof.
    destruct l as [|(c, p) r]; destruct HA as (A1 & A2 & A3); rewrite A1, A2; auto.
    destruct HO as [HF _]. inversion HF; subst. cbn [fst snd] in *.
    f_equal. destruct (Z.leb_spec (slen c) (spos q)), (Z.eqb_spec (spos q) (slen c)); auto; lia.
Qed.

Lemma run_ok ops : forall st a, R st a -> a_bounded slen a ops ->
  exists st', sq_run slen st ops = Some (st', snd (a_run slen a ops)) /\ R st' (fst (a_run slen a ops)).
Proof.
  induction ops as [|o r IH]; intros st a HR HB; cbn [sq_run a_run a_bounded] in *.
  - eauto.
  - destruct HB as [HB HB2].
    destruct (step_ok st a o HR HB) as (st1 & -> & H1).
    { destruct r; cbn [a_bounded] in HB2; tauto. }
    destruct (IH st1 _ H1 HB2) as (st2 & E2 & H2). cbn [obind]. rewrite E2. cbn [obind].
    destruct (a_step slen a o) as [a1 x]. cbn [fst snd] in *.
    destruct (a_run slen a1 r) as [a2 y]. cbn [fst snd] in *. eauto.
Qed.

Lemma new_ok : exists q, sqNew = Some q /\ R (q, []) ([], []).
Proof.
  unfold sqNew, qNew. destruct (fill_inv qitem0 (@nil (@qitem S))) as (i & -> & HI); [reflexivity|].
  cbn [obind]. eexists; split; [reflexivity|].
  split; [repeat split; auto|]. split; [split; [constructor|left; constructor]|]. split; constructor.
Qed.

End P.

(** C08 and C09.  For every kind of source and every history of calls
    (including taking snapshots and restoring any of them, any number of times),
    no call panics and every answer (current source, position, IsEmpty, Eof,
    result of NextSource) is that of the abstract queue. *)
Theorem source_queue_refines_list :
  forall (S : Type) (slen : S -> Z) (ops : list (sqop S)),
  (forall s, 0 <= slen s) -> a_bounded slen ([], []) ops ->
  exists q st, sqNew = Some q /\
    sq_run slen (q, []) ops = Some (st, snd (a_run slen ([], []) ops)).
Proof.
  intros S slen ops HL HB. destruct (@new_ok S slen) as (q & E & HR).
  destruct (run_ok slen HL ops _ _ HR HB) as (st & E2 & _). eauto.
Qed.
Print Assumptions source_queue_refines_list.

(** C08.  After any history the position is inside the current source, and an
    empty source is current only when nothing else is waiting. *)
Theorem source_queue_invariants :
  forall (S : Type) (slen : S -> Z) (ops : list (sqop S)) q q' snaps outs,
  (forall s, 0 <= slen s) -> a_bounded slen ([], []) ops ->
  sqNew = Some q -> sq_run slen (q, []) ops = Some ((q', snaps), outs) ->
  match scur q' with
  | None => spos q' = 0 /\ sqNextSource q' = Some (q', false)
  | Some s => 0 <= spos q' <= slen s /\
              (slen s = 0 -> exists q'', sqNextSource q' = Some (q'', false)) /\
              (forall q'' s'', sqNextSource q' = Some (q'', true) -> scur q'' = Some s'' -> slen s'' <> 0)
  end.
Proof.
  intros S slen ops q q' snaps outs HL HB HN HE.
  destruct (@new_ok S slen) as (q0 & E & HR). rewrite HN in E. injection E as <-.
  destruct (run_ok slen HL ops _ _ HR HB) as (st & E2 & (HA & HO & _ & _)).
  rewrite HE in E2. injection E2 as <- _. cbn [fst] in HA.
  pose proof (run_ok slen HL) as _.
  set (l := fst (fst (a_run slen ([], []) ops))) in *.
  assert (HBl : zlen l < 2 ^ 31).
  { unfold l. clear -HB. revert HB. generalize (@nil (S * Z), @nil (aq S)).
    induction ops as [|o r IH]; intros p HB; cbn [a_run a_bounded] in *; [tauto|].
    destruct HB as [_ HB]. specialize (IH _ HB). destruct (a_step slen p o) as [a1 x]. cbn [fst] in *.
    destruct (a_run slen a1 r) as [a2 y]. exact IH. }
  destruct l as [|(c, p) r]; destruct HA as (A1 & A2 & A3); rewrite A1.
  - split; auto. unfold sqNextSource, qFirst.
    pose proof (empty_inv qitem0 (sq q') _ A3) as EE. cbn in EE. rewrite EE. cbn [obind].
    destruct q'; cbn in *; subst; reflexivity.
  - split; [|split].
    + destruct HO as [HF _]. inversion HF; subst. auto.
    + intros Z0. destruct (OK_cases slen c p r HO) as [(C1 & _)|(_ & ->)]; [contradiction|].
      unfold sqNextSource. destruct (first_inv qitem0 (sq q') _ A3) as (i & -> & HI); [reflexivity|]. cbn. eauto.
    + intros q'' s'' HX HC. unfold sqNextSource in HX.
      destruct (first_inv qitem0 (sq q') _ A3) as (i & EF & HI).
      { unfold zlen in *. rewrite map_length. cbn [length] in HBl. lia. }
      rewrite EF in HX. cbn [obind] in HX. destruct r as [|(c2, p2) r]; [discriminate|].
      cbn in HX. injection HX as <-. cbn in HC. injection HC as <-.
      destruct HO as [_ [HO|HO]]; [|discriminate]. inversion HO; subst. inversion H2; subst.
      unfold has_text in H3. cbn [fst] in H3. destruct (Z.eqb_spec (slen c2) 0); [discriminate|auto].
Qed.
Print Assumptions source_queue_invariants.

(** C09, direct form.  Take a snapshot after any history [before], make any calls
    [between], restore it: every later answer is the one obtained by making the
    later calls [after] right when the snapshot was taken.  [after] does not
    restore older snapshots (it may take and restore its own). *)
Fixpoint closed_snaps {S} (n : nat) (ops : list (sqop S)) : bool :=
  match ops with
  | [] => true
  | SqSnapshot :: r => closed_snaps (Datatypes.S n) r
  | SqRestore k :: r => Nat.ltb k n && closed_snaps n r
  | _ :: r => closed_snaps n r
  end.

Fixpoint snaps_taken {S} (ops : list (sqop S)) : nat :=
  match ops with [] => O | SqSnapshot :: r => Datatypes.S (snaps_taken r) | _ :: r => snaps_taken r end.

Lemma a_run_app {S} (slen : S -> Z) ops1 : forall st ops2,
  a_run slen st (ops1 ++ ops2) =
  let (st1, r1) := a_run slen st ops1 in let (st2, r2) := a_run slen st1 ops2 in (st2, r1 ++ r2).
Proof.
  induction ops1 as [|o r IH]; intros st ops2; cbn [app a_run].
  - destruct (a_run slen st ops2); reflexivity.
  - destruct (a_step slen st o) as [st1 x]. rewrite IH. destruct (a_run slen st1 r) as [st2 y].
    destruct (a_run slen st2 ops2) as [st3 z]. reflexivity.
Qed.

Lemma a_run_closed {S} (slen : S -> Z) ops : forall l own s1 s2,
  closed_snaps (length own) ops = true ->
  snd (a_run slen (l, own ++ s1) ops) = snd (a_run slen (l, own ++ s2) ops).
Proof.
  induction ops as [|o r IH]; intros l own s1 s2 H; [reflexivity|].
  assert (G : forall l', closed_snaps (length own) r = true ->
     snd (a_run slen (l', own ++ s1) r) = snd (a_run slen (l', own ++ s2) r)) by auto.
  destruct o as [[s|]|[s|]| |n|n|n| |k|]; cbn [a_run a_step closed_snaps] in *;
    try (match goal with |- snd (let (_, _) := a_run _ (?l', _) _ in _) = _ =>
        specialize (G l' H);
        destruct (a_run slen (l', own ++ s1) r), (a_run slen (l', own ++ s2) r); cbn [snd] in *; first [congruence | f_equal; exact G] end).
  - assert (SL : forall (x : (aq S * list (aq S)) * list (sqret S)) c,
      snd (let (a, b) := x in (a, c :: b)) = c :: snd x) by (intros [] c; reflexivity).
    rewrite !SL. f_equal. exact (G (tl l) H).
  - specialize (IH l (l :: own) s1 s2 H). cbn [app] in IH.
    destruct (a_run slen (l, l :: own ++ s1) r), (a_run slen (l, l :: own ++ s2) r). cbn [snd] in *. congruence.
  - apply andb_prop in H as [H1 H2]. apply Nat.ltb_lt in H1. rewrite !app_nth1 by auto.
    specialize (G (nth k own l) H2).
    destruct (a_run _ (_, own ++ s1) r), (a_run _ (_, own ++ s2) r); cbn [snd] in *; congruence.
Qed.

Lemma a_run_snaps {S} (slen : S -> Z) ops : forall l s,
  exists l' new, fst (a_run slen (l, s) ops) = (l', new ++ s) /\ length new = snaps_taken ops.
Proof.
  induction ops as [|o r IH]; intros l s.
  - exists l, []. auto.
  - cbn [a_run snaps_taken].
    assert (G : forall l', exists l'' new, fst (a_run slen (l', s) r) = (l'', new ++ s) /\ length new = snaps_taken r) by auto.
    destruct o as [[s0|]|[s0|]| |n|n|n| |k|]; cbn [a_step snaps_taken];
    try (match goal with |- context [a_run _ (?l', s) r] => destruct (G l') as (l'' & new & E & L) end;
      exists l'', new; destruct (a_run slen _ r); cbn [fst] in *; auto).
    destruct (IH l (l :: s)) as (l'' & new & E & L). exists l'', (new ++ [l]).
    destruct (a_run slen _ r); cbn [fst] in *. rewrite E, <- app_assoc, app_length. cbn. split; auto. lia.
Qed.

Theorem source_queue_restore :
  forall (S : Type) (slen : S -> Z) (before between after : list (sqop S)) q,
  (forall s, 0 <= slen s) -> sqNew = Some q ->
  a_bounded slen ([], []) (before ++ [SqSnapshot] ++ between ++ [SqRestore (snaps_taken between)] ++ after) ->
  a_bounded slen ([], []) (before ++ after) ->
  closed_snaps 0 after = true ->
  exists st1 outs1 st2 outs2 outs2' answers,
    sq_run slen (q, []) (before ++ [SqSnapshot] ++ between ++ [SqRestore (snaps_taken between)] ++ after)
      = Some (st1, outs1 ++ answers) /\
    sq_run slen (q, []) (before ++ after) = Some (st2, outs2 ++ outs2') /\
    length answers = length after /\ length outs2' = length after /\ answers = outs2'.
Proof.
  intros S slen before between after q HL HN HB1 HB2 HC.
  destruct (@new_ok S slen) as (q0 & E & HR). rewrite HN in E. injection E as <-.
  destruct (run_ok slen HL _ _ _ HR HB1) as (st1 & E1 & _).
  destruct (run_ok slen HL _ _ _ HR HB2) as (st2 & E2 & _).
  assert (LEN : forall ops st, length (snd (a_run slen st ops)) = length ops).
  { induction ops as [|o r IH]; intros st; cbn [a_run]; auto.
    destruct (a_step slen st o) as [s1 x]. specialize (IH s1). destruct (a_run slen s1 r). cbn [snd length] in *. auto. }
  rewrite a_run_app in E1, E2.
  destruct (a_run slen ([], []) before) as [[l sn] r1] eqn:EB.
  cbn [app] in E1. cbn [a_run a_step] in E1. rewrite a_run_app in E1.
  destruct (a_run_snaps slen between l (l :: sn)) as (l' & new & ES & LS).
  destruct (a_run slen (l, l :: sn) between) as [[l2 sn2] r2]. cbn [fst] in ES. injection ES as -> ->.
  cbn [a_run a_step] in E1.
  assert (NT : nth (snaps_taken between) (new ++ l :: sn) l' = l).
  { rewrite app_nth2 by lia. rewrite LS, Nat.sub_diag. reflexivity. }
  rewrite NT in E1.
  pose proof (a_run_closed slen after l [] (new ++ l :: sn) sn HC) as CL. cbn [app] in CL.
  pose proof (LEN after (l, new ++ l :: sn)) as L1. pose proof (LEN after (l, sn)) as L2.
  destruct (a_run slen (l, new ++ l :: sn) after) as [sa ra].
  destruct (a_run slen (l, sn) after) as [sb rb]. cbn [snd] in *. subst rb.
  exists st1, (r1 ++ RNone :: r2 ++ [RNone]), st2, r1, ra, ra.
  repeat split; auto. cbn [app]. rewrite E1. f_equal. f_equal. rewrite <- !app_assoc. cbn [app].
  rewrite <- app_assoc. reflexivity.
Qed.
Print Assumptions source_queue_restore.

(** Non-vacuity. *)
Definition sq_demo : list (sqop Z) :=
  [SqAppend (Some 0); SqAppend (Some 5); SqAppend (Some 0); SqSkip 3; SqPrepend (Some 4); SqObserve;
   SqSkip 9; SqObserve; SqSnapshot; SqNext; SqObserve; SqNext; SqObserve; SqRestore 0; SqObserve;
   SqRewind 1; SqSeek (-4); SqObserve].
Example sq_demo_bounded : a_bounded (fun x : Z => Z.abs x) ([], []) sq_demo.
Proof. vm_compute. repeat split; reflexivity. Qed.
Example sq_demo_run : snd (a_run (fun x : Z => Z.abs x) ([], []) sq_demo) =
  [RNone; RNone; RNone; RNone; RNone; RState (Some 4) 0 false false; RNone;
   RState (Some 4) 4 false true; RNone; RMore true; RState (Some 5) 3 false false; RMore false;
   RState None 0 true true; RNone; RState (Some 4) 4 false true; RNone; RNone; RState (Some 4) 0 false false].
Proof. reflexivity. Qed.
