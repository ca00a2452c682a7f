(** Building the states of definitions does not fail. *)
From Coq Require Import ZArith List Bool Lia.
From Verif Require Import Base BaseProofs Grammar LangBuild LangSpec LangProofs LangFrame.
Import ListNotations.
Open Scope Z_scope.

Lemma zget_has {A} (l : list A) i : 0 <= i < zlen l -> exists x, zget l i = Some x /\ In x l.
Proof.
  intros Q. unfold zget. destruct (Z.ltb_spec i 0); [lia|]. destruct (nth_error l (Z.to_nat i)) as [x|] eqn:E.
  - exists x. split; [reflexivity|eapply nth_error_In, E].
  - apply nth_error_None in E. unfold zlen in Q. lia.
Qed.

Section Total.
Variable firsts : list (list Z).

Lemma addRule_total s st nt ks : forall p, live p s -> exists p', addRule p s st nt ks = Some p'.
Proof.
  induction ks as [|k ks IH]; intros p L; cbn [addRule]; [eauto|]. destruct (addRule1_total p s st nt k L) as (p1 & H). rewrite H. cbn [obind].
  apply IH. assert (A : addRule p s st nt [k] = Some p1) by (cbn [addRule]; rewrite H; reflexivity). apply addRule_keeps in A. unfold live in *. lia.
Qed.
Lemma copyBack_total l : forall states p, (forall x, In x states -> live p x) -> exists p', copyBack l states p = Some p'.
Proof.
  induction l as [|c l IH]; intros states p LV; [eexists; reflexivity|]. destruct l as [|c' l]; [eexists; reflexivity|].
  destruct states as [|s [|s' states]]; [eexists; reflexivity|eexists; reflexivity|].
  change (copyBack (c :: c' :: l) (s :: s' :: states) p) with
    (do p <- copyBack (c' :: l) (s' :: states) p; if isOptional c then copyRules p s s' else Some p).
  destruct (IH (s' :: states) p) as (p1 & H); [intros x X; apply LV; right; exact X|]. rewrite H. cbn [obind].
  destruct (isOptional c); [|eauto]. apply copyBack_keeps in H. destruct H as (Z1 & _).
  apply copyRules_total; unfold live; rewrite Z1; apply LV; cbn; auto.
Qed.

Definition total (c : chunk) : Prop := forall s n p, live p s -> exists p', buildStates firsts c s n p = Some p'.
Lemma seq_total l : (forall c, In c l -> written c) -> (forall c, In c l -> total c) -> forall states tail p, (length l <= length states)%nat -> (forall x, In x states -> live p x) ->
  exists p', buildSeq firsts l states tail p = Some p' /\ zlen (sts p) <= zlen (sts p').
Proof.
  induction l as [|c l IH]; intros W T states tail p LE LV; cbn [buildSeq]; [exists p; split; [reflexivity|lia]|].
  destruct states as [|s ss]; [cbn in LE; lia|].
  destruct (T c (or_introl eq_refl) s (hd tail ss) p (LV s (or_introl eq_refl))) as (p1 & H). rewrite H. cbn [obind].
  pose proof (build_zlen _ _ _ _ _ _ (W c (or_introl eq_refl)) H) as Z1.
  destruct (IH (fun c' C => W c' (or_intror C)) (fun c' C => T c' (or_intror C)) ss tail p1) as (p2 & H2 & Z2); [cbn in LE; lia| |exists p2; split; [exact H2|lia]].
  intros x X. specialize (LV x (or_intror X)). unfold live in *. lia.
Qed.
Lemma build_total c : written c -> total c.
Proof.
  induction c as [t| |i|opt rep l IH|l IH] using chunk_nest; intros W s n p LV.
  - apply addRule_total, LV.
  - apply addRule_total, LV.
  - apply addRule_total, LV.
  - inversion W as [| | | |? ? ? NE RO WL]; subst. rewrite buildStates_group. cbv zeta.
    destruct (if rep && (1 <? zlen l) then addState p else (s, p)) as (first, p0) eqn:A.
    destruct (addStates (length l - 1) p0) as (rest, p1) eqn:B.
    assert (A' : live p0 first /\ zlen (sts p) <= zlen (sts p0)).
    { destruct (rep && (1 <? zlen l)); [|injection A as <- <-; split; [exact LV|lia]]. apply addState_spec in A. destruct A as (-> & A2 & _).
      unfold live. pose proof (zlen_nonneg (sts p)). lia. }
    destruct A' as (LF & Z0). apply addStates_spec in B. destruct B as (B1 & B2 & B3 & _).
    assert (LVS : forall x, In x (first :: rest) -> live p1 x).
    { intros x [<-|X]; unfold live in *; [lia|]. specialize (B3 x X). pose proof (zlen_nonneg (sts p0)). lia. }
    assert (LE : length l = length (first :: rest)). { cbn [length]. rewrite B1. destruct l; [contradiction|cbn; lia]. }
    destruct (seq_total l WL (fun c C => IH c C (WL c C)) (first :: rest) (if rep then s else n) p1) as (p2 & H2 & Z2); [lia|exact LVS|].
    rewrite H2. cbn [obind].
    assert (ZL : 0 < zlen l). { destruct l; [contradiction|]. unfold zlen. cbn [length]. lia. }
    destruct (zget_has l (zlen l - 1)) as (lc & HC & _); [lia|]. rewrite HC. cbn [obind].
    destruct (zget_has (first :: rest) (zlen l - 1)) as (ls & HS & LI); [unfold zlen in *; rewrite <- LE; lia|]. rewrite HS. cbn [obind].
    assert (LS : live p2 ls). { specialize (LVS ls LI). unfold live in *. lia. }
    assert (X : exists p3, (if isOptional lc then bypassRule p2 ls (if rep then s else n) else Some p2) = Some p3 /\ zlen (sts p3) = zlen (sts p2)).
    { destruct (isOptional lc); [|eauto]. destruct (addRule_total ls (if rep then s else n) SameNode [AnyToken] p2 LS) as (p3 & H3). exists p3. split; [exact H3|].
      apply addRule_keeps in H3. apply H3. }
    destruct X as (p3 & H3 & Z3). rewrite H3. cbn [obind].
    destruct (copyBack_total l (first :: rest) p3) as (p4 & H4). { intros x X. specialize (LVS x X). unfold live in *. lia. }
    rewrite H4. cbn [obind]. apply copyBack_keeps in H4. destruct H4 as (Z4 & _).
    destruct (rep && (1 <? zlen l)); [|eauto]. apply copyRules_total; unfold live in *; lia.
  - inversion W as [| | |? NE WL|]; subst. rewrite buildStates_var. clear W NE. revert p LV. induction l as [|c l IL]; intros p LV; cbn [buildVar]; [eauto|].
    destruct (IH c (or_introl eq_refl) (WL c (or_introl eq_refl)) s n p LV) as (p1 & H). rewrite H. cbn [obind].
    apply IL; [intros c' C; apply IH; right; exact C|intros c' C; apply WL; right; exact C|].
    pose proof (build_zlen _ _ _ _ _ _ (WL c (or_introl eq_refl)) H) as Z1. unfold live in *. lia.
Qed.
Lemma nodes_total defs : (forall d, In d defs -> written d) -> forall p, exists fs p', buildNodes firsts defs p = Some (fs, p') /\ length fs = length defs.
Proof.
  induction defs as [|d defs IH]; intros W p; cbn [buildNodes]; [eauto|]. destruct (addState p) as (f, p1) eqn:A.
  apply addState_spec in A. destruct A as (-> & A2 & _).
  destruct (build_total d (W d (or_introl eq_refl)) (zlen (sts p)) FinalState p1) as (p2 & H). { unfold live. pose proof (zlen_nonneg (sts p)). lia. }
  rewrite H. cbn [obind]. destruct (IH (fun d' D => W d' (or_intror D)) p2) as (fs & p3 & H2 & L). rewrite H2. cbn [obind]. do 2 eexists. split; [reflexivity|]. cbn [length]. congruence.
Qed.
End Total.
