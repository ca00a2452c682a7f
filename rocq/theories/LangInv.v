(** Invariants of the construction of states: what holds for the steps holds for the whole. *)
From Coq Require Import ZArith List Bool Lia Sorted.
From Verif Require Import Base BaseProofs Grammar RulesSpec ParserSpec LangBuild LangSpec LangProofs LangFrame LangComplete LangTotal TablesSpec LangTables LangDrop LangShare LangFair.
Import ListNotations.
Open Scope Z_scope.

Section Inv.
Variable firsts : list (list Z).
Variable J : pres -> Prop.
Hypothesis J_one : forall p s n k p', okP p -> J p -> addRule p s n SameNode [k] = Some p' -> okP p' /\ J p'.
Hypothesis J_node : forall p s n i p', okP p -> J p -> 0 <= i -> addRule p s n i (firstsOf firsts i) = Some p' -> okP p' /\ J p'.
Hypothesis J_copy : forall p i j p', okP p -> J p -> copyRules p i j = Some p' -> okP p' /\ J p'.
Hypothesis J_grow : forall p p1, J p -> (forall q, q < zlen (sts p) -> zget (sts p1) q = zget (sts p) q) ->
  (forall q, zlen (sts p) <= q < zlen (sts p1) -> zget (sts p1) q = Some (mkEntry 0 [] [])) -> J p1.

Lemma build_inv c : written c -> forall s n p p', buildStates firsts c s n p = Some p' -> okP p -> J p -> live p s -> okP p' /\ J p'.
Proof.
  induction c as [t| |i|opt rep l IH|l IH] using chunk_nest; intros W s n p p' H O S LV.
  - eapply J_one; eassumption.
  - eapply J_one; eassumption.
  - inversion W; subst. eapply J_node; eassumption.
  - inversion W as [| | | |? ? ? NE RO WL]; subst.
    destruct (group_parts _ _ _ _ _ _ _ _ LV H) as (first & rest & p1 & p2 & p3 & p4 & ls & G). destruct G as [gp_len0 gp_first0 gp_rest0 gp_nodup0 gp_zlen0 gp_old0 gp_new0 gp_seq0 gp_last0 gp_copy0 gp_extra0 gp_cells0].
    assert (LVS : forall x, In x (first :: rest) -> live p1 x).
    { intros x X. unfold live in *. destruct X as [<-|X]; [|specialize (gp_rest0 x X); pose proof (zlen_nonneg (sts p)); lia].
      destruct gp_first0 as [(-> & _)|(Q & _)]; pose proof (zlen_nonneg (sts p)); lia. }
    assert (S1 : J p1) by (eapply J_grow; eassumption). assert (O1 : okP p1) by (eapply grown_ok; eassumption).
    assert (X2 : okP p2 /\ J p2).
    { revert WL IH gp_seq0 O1 S1 LVS. generalize (if rep then s else n) as tail. generalize (first :: rest) as states. clear. revert p1.
      induction l as [|c l IL]; intros p1 states tail WL IH H O1 S1 LVS.
      - cbn in H. injection H as <-. auto.
      - destruct states as [|s ss]; [discriminate H|]. cbn [buildSeq] in H. ob H. rename x into pm.
        pose proof (WL c (or_introl eq_refl)) as Wc. pose proof (build_zlen _ _ _ _ _ _ Wc H0) as Z1.
        destruct (IH c (or_introl eq_refl) Wc _ _ _ _ H0 O1 S1 (LVS s (or_introl eq_refl))) as (O2 & S2).
        apply (IL pm ss tail (fun c' C => WL c' (or_intror C)) (fun c' C => IH c' (or_intror C)) H O2 S2).
        intros x X. specialize (LVS x (or_intror X)). unfold live in *. lia. }
    destruct X2 as (O2 & S2). destruct gp_last0 as (lc & l0 & st0 & EL & ES & LEN & BP).
    assert (X3 : okP p3 /\ J p3).
    { destruct (isOptional lc); [|injection BP as <-; auto]. eapply J_one; eassumption. }
    destruct X3 as (O3 & S3).
    assert (X4 : okP p4 /\ J p4).
    { revert O3 S3. assert (R : okP p3 /\ J p3 -> okP p4 /\ J p4); [|auto].
      apply (rel_copyBack (fun p p' => okP p /\ J p -> okP p' /\ J p')) with (l := l) (states := first :: rest); auto.
      intros p0 i j p5 A (A1 & A2). eapply J_copy; eassumption. }
    destruct X4 as (O4 & S4). destruct (rep && (1 <? zlen l)); [eapply J_copy; eassumption|injection gp_extra0 as <-; auto].
  - inversion W as [| | |? NE WL|]; subst. rewrite buildStates_var in H.
    clear W NE. revert p H O S LV. induction l as [|c l IL]; intros p H O S LV; cbn [buildVar] in H.
    + injection H as <-. auto.
    + ob H. rename x into pm. pose proof (WL c (or_introl eq_refl)) as Wc. pose proof (build_zlen _ _ _ _ _ _ Wc H0) as Z1.
      destruct (IH c (or_introl eq_refl) Wc _ _ _ _ H0 O S LV) as (O2 & S2).
      apply (IL (fun c' C => IH c' (or_intror C)) (fun c' C => WL c' (or_intror C)) pm H O2 S2). unfold live in *. lia.
Qed.
Lemma nodes_inv defs : (forall d, In d defs -> written d) -> forall p fs p', buildNodes firsts defs p = Some (fs, p') -> okP p -> J p -> okP p' /\ J p'.
Proof.
  induction defs as [|d ds IH]; intros W p fs p' H O S; cbn [buildNodes] in H.
  - injection H as <- <-. auto.
  - destruct (addState p) as (first, p1) eqn:A. ob H. rename x into p2. ob H. destruct x as (fs', p3). injection H as <- <-.
    assert (O1 : okP p1) by (eapply addState_ok, A; exact O).
    apply addState_spec in A. destruct A as (-> & A2 & A3 & A4 & A5). pose proof (zlen_nonneg (sts p)) as ZN.
    assert (S1 : J p1). { apply (J_grow p p1 S). { intros q Q. apply A3. lia. } { intros q Q. replace q with (zlen (sts p)) by lia. exact A4. } }
    destruct (build_inv d (W d (or_introl eq_refl)) _ _ _ _ H0 O1 S1) as (O2 & S2); [unfold live; lia|].
    apply (IH (fun d' D => W d' (or_intror D)) _ _ _ H1 O2 S2).
Qed.
End Inv.

(** ** Rules for a nested node come together *)
Section Brothers.
Variable firsts : list (list Z).
Definition brothers (p : pres) : Prop := forall i r, has p i r -> rNode r <> SameNode -> forall k, In k (firstsOf firsts (rNode r)) -> 0 <= k -> has p i (mkRule k (rState r) (rNode r)).
Lemma addRule_has i st nt ks : forall p p', okP p -> addRule p i st nt ks = Some p' -> okP p' /\ onlyAt p p' i /\
  (forall r, has p i r -> 0 <= rToken r -> has p' i r) /\ (forall k, In k ks -> 0 <= k -> has p' i (mkRule k st nt)) /\
  (forall r, has p' i r -> has p i r \/ exists k, In k ks /\ r = mkRule k st nt).
Proof.
  induction ks as [|k ks IH]; intros p p' O H; cbn [addRule] in H.
  - injection H as <-. split; [exact O|]. split; [split; [reflexivity|reflexivity]|]. split; [auto|]. split; [intros k []|auto].
  - ob H. rename x into p1. destruct (addRule1_spec _ _ _ _ _ _ O H0) as (L & F & O1 & HAS). destruct (IH p1 p' O1 H) as (O2 & F2 & K2 & N2 & B2). split; [exact O2|]. split; [|split; [|split]].
    + destruct F as (A1 & A2), F2 as (B1 & B3). split; [congruence|]. intros q Q. rewrite (B3 q Q). apply A2, Q.
    + intros r R T. apply K2; [|exact T]. apply HAS. right. split; [exact R|lia].
    + intros x [<-|X] T; [apply K2; [apply HAS; left; reflexivity|exact T]|apply N2; assumption].
    + intros r R. destruct (B2 r R) as [X|(x & X & ->)]; [|right; exists x; split; [right; exact X|reflexivity]]. apply HAS in X. destruct X as [->|(X & _)]; [right; exists k; split; [left; reflexivity|reflexivity]|auto].
Qed.
Lemma brothers_nodes defs : (forall d, In d defs -> written d) -> forall fs p', buildNodes firsts defs (mkPres [] 0) = Some (fs, p') -> okP p' /\ brothers p'.
Proof.
  intros W fs p' H. refine (nodes_inv firsts brothers _ _ _ _ defs W _ _ _ H _ _).
  - intros p s n k p1 O B A. destruct (addRule_has _ _ _ _ _ _ O A) as (O1 & F & K & _ & BK). split; [exact O1|]. intros q r R NS x X T.
    destruct (Z.eq_dec q s) as [->|NE].
    + destruct (BK r R) as [R0|(y & _ & ->)]; [|destruct (NS eq_refl)]. apply K; [|exact T]. apply (B s r R0 NS x X T).
    + apply (has_onlyAt _ _ _ _ _ F NE). apply (has_onlyAt _ _ _ _ _ F NE) in R. apply (B q r R NS x X T).
  - intros p s n i p1 O B NN A. destruct (addRule_has _ _ _ _ _ _ O A) as (O1 & F & K & N & BK). split; [exact O1|]. intros q r R NS x X T.
    destruct (Z.eq_dec q s) as [->|NE].
    + destruct (BK r R) as [R0|(y & _ & ->)]; [apply K; [|exact T]; apply (B s r R0 NS x X T)|]. cbn [rState rNode] in *. apply N; assumption.
    + apply (has_onlyAt _ _ _ _ _ F NE). apply (has_onlyAt _ _ _ _ _ F NE) in R. apply (B q r R NS x X T).
  - intros p i j p1 O B A. destruct (copyRules_spec _ _ _ _ O A) as (L & L' & F & O1 & HAS). split; [exact O1|]. intros q r R NS x X T.
    destruct (Z.eq_dec q i) as [->|NE].
    + apply HAS. apply HAS in R. destruct R as [R|(R & _)]; [left; apply (B j r R NS x X T)|right]. split; [apply (B i r R NS x X T)|]. cbn [rToken]. lia.
    + apply (has_onlyAt _ _ _ _ _ F NE). apply (has_onlyAt _ _ _ _ _ F NE) in R. apply (B q r R NS x X T).
  - intros p p1 B A1 A2 q r (e & G & Y). pose proof (zget_Some_inv _ _ _ G) as Q. destruct (Z.lt_ge_cases q (zlen (sts p))) as [LT|GE].
    + intros NS x X T. rewrite A1 in G by exact LT. destruct (B q r (ex_intro _ e (conj G Y)) NS x X T) as (e' & G' & Y'). exists e'. split; [rewrite A1 by exact LT; exact G'|exact Y'].
    + rewrite A2 in G by lia. injection G as <-. destruct Y.
  - intros q e G. apply zget_Some_inv in G. cbn in G. lia.
  - intros q r (e & G & _). apply zget_Some_inv in G. cbn in G. lia.
Qed.
End Brothers.
