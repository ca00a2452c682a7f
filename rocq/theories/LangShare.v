(** Which states share a rule; targets of the rules. *)
From Coq Require Import ZArith List Bool Lia.
From Verif Require Import Base BaseProofs Grammar LangBuild LangSpec LangProofs LangFrame LangComplete LangTotal LangTables LangDrop.
Import ListNotations.
Open Scope Z_scope.

Lemma leaves_group opt rep l inner : leaves (CGroup opt rep l) inner = leavesSeq l (rep || inner).
Proof.
  cbn [leaves]. induction l as [|c l IH]; [reflexivity|]. cbn [leavesSeq]. destruct l as [|c' l]; [reflexivity|]. rewrite IH. reflexivity.
Qed.
Fixpoint skipsSeq (l : list chunk) (inner : bool) : bool :=
  match l with
  | [] => true
  | c :: l' =>
      match l' with
      | [] => skipsApart c inner
      | _ => skipsApart c true && negb (isOptional c && leavesSeq l' inner) && skipsSeq l' inner
      end
  end.
Lemma skips_group opt rep l inner : skipsApart (CGroup opt rep l) inner = skipsSeq l (rep || inner) && negb (rep && (1 <? zlen l) && leavesSeq l (rep || inner)).
Proof.
  cbn [skipsApart]. f_equal. clear. induction l as [|c l IH]; [reflexivity|]. cbn [skipsSeq]. destruct l as [|c' l]; [reflexivity|]. rewrite IH. reflexivity.
Qed.

(** ** Invariants *)
Record sane (p : pres) : Prop := mkSane {
  sa_ok : okP p;
  sa_fresh : forall i e k id r, zget (sts p) i = Some e -> In (k, (id, r)) (eNeg e) -> id < prCells p;
  sa_cells : cellsOk (sts p);
  sa_range : forall i r, has p i r -> FinalState <= rState r < zlen (sts p)
}.
(** a rule that skips something and stays inside the node *)
Definition skip (p : pres) (q : Z) : Prop := exists r, has p q r /\ rToken r < 0 /\ 0 <= rState r.

Lemma neg_has p i e k id r : okP p -> zget (sts p) i = Some e -> In (k, (id, r)) (eNeg e) -> has p i r /\ rToken r < 0.
Proof.
  intros O G X. split.
  - apply (has_at _ _ _ _ G). right. apply negRules_In. eauto.
  - destruct (eo_negKey e (O i e G) _ _ _ X). lia.
Qed.

Lemma addRule1_cells p i st nt k p' : addRule1 p i st nt k = Some p' -> exists e e', zget (sts p) i = Some e /\ zget (sts p') i = Some e' /\ onlyAt p p' i /\
  (0 <= k /\ eNeg e' = eNeg e /\ prCells p' = prCells p \/ k < 0 /\ eNeg e' = mput k (prCells p, mkRule k st nt) (eNeg e) /\ prCells p' = prCells p + 1).
Proof.
  intros H. unfold addRule1 in H. ob H. rename x into e. exists e. destruct (Z.leb_spec 0 k).
  - pose proof H as H'. unfold setState in H'. ob H'. injection H' as <-. apply setState_inv in H. destruct H as (_ & F & G & _). eexists. split; [exact H0|]. split; [exact G|]. split; [exact F|].
    left. cbn [eNeg prCells]. auto.
  - ob H. injection H as <-. pose proof H2 as H'. unfold setState in H'. ob H'. injection H' as <-. apply setState_inv in H2. destruct H2 as (_ & F & G & _). eexists. split; [exact H0|].
    cbn [prStates prCells] in *. split; [exact G|]. split; [exact F|]. right. cbn [eNeg]. auto.
Qed.
Lemma has_other p p' i q r : onlyAt p p' i -> q <> i -> has p' q r -> has p q r.
Proof. intros F NE. apply (has_onlyAt _ _ _ _ _ F NE). Qed.
Lemma addRule1_sane p i st nt k p' : sane p -> addRule1 p i st nt k = Some p' -> FinalState <= st < zlen (sts p) ->
  sane p' /\ (forall q, skip p' q -> skip p q \/ q = i /\ k < 0 /\ 0 <= st).
Proof.
  intros [O FR CO RG] H B. destruct (addRule1_spec _ _ _ _ _ _ O H) as (L & F & O' & S). destruct (addRule1_cells _ _ _ _ _ _ H) as (e & e' & G & G' & _ & N).
  assert (ZL : zlen (sts p') = zlen (sts p)) by apply F.
  assert (PC : prCells p <= prCells p') by lia.
  (* cells: old ones or the new one *)
  assert (CELL : forall q eq k' id r, zget (sts p') q = Some eq -> In (k', (id, r)) (eNeg eq) ->
     (exists e0, zget (sts p) q = Some e0 /\ In (k', (id, r)) (eNeg e0)) \/ q = i /\ id = prCells p /\ k' = k /\ k < 0 /\ r = mkRule k st nt /\ prCells p' = prCells p + 1).
  { intros q eq k' id r Gq X. destruct (Z.eq_dec q i) as [->|NE].
    - rewrite G' in Gq. injection Gq as <-. destruct N as [(_ & E & _)|(K & E & C)].
      + rewrite E in X. left. eauto.
      + rewrite E in X. apply mput_In in X; [|exact (eo_neg e (O i e G))]. destruct X as [[= -> -> ->]|(X & _)]; [right; auto 10|left; eauto].
    - destruct F as (_ & F). rewrite (F q NE) in Gq. left. eauto. }
  split; [split|].
  - exact O'.
  - intros q eq k' id r Gq X. destruct (CELL _ _ _ _ _ Gq X) as [(e0 & G0 & X0)|(_ & -> & _ & _ & _ & C)]; [|lia]. specialize (FR _ _ _ _ _ G0 X0). lia.
  - intros a b ea eb k1 k2 id r1 r2 Ga Gb Xa Xb. destruct (CELL _ _ _ _ _ Ga Xa) as [(ea0 & Ga0 & Xa0)|(A1 & A2 & A3 & A4 & A5 & A6)].
    + destruct (CELL _ _ _ _ _ Gb Xb) as [(eb0 & Gb0 & Xb0)|(B1 & B2 & B3 & B4 & B5 & B6)].
      * exact (CO _ _ _ _ _ _ _ _ _ Ga0 Gb0 Xa0 Xb0).
      * specialize (FR _ _ _ _ _ Ga0 Xa0). lia.
    + destruct (CELL _ _ _ _ _ Gb Xb) as [(eb0 & Gb0 & Xb0)|(B1 & B2 & B3 & B4 & B5 & B6)].
      * specialize (FR _ _ _ _ _ Gb0 Xb0). lia.
      * split; [congruence|]. split; [congruence|]. intros _. congruence.
  - intros q r X. rewrite ZL. destruct (Z.eq_dec q i) as [->|NE]; [|apply (RG q), (has_other _ _ _ _ _ F NE), X].
    apply S in X. destruct X as [->|(X & _)]; [exact B|apply (RG i r X)].
  - intros q (r & X & K & T). destruct (Z.eq_dec q i) as [->|NE]; [|left; exists r; split; [exact (has_other _ _ _ _ _ F NE X)|auto]].
    apply S in X. destruct X as [->|(X & _)]; [right; cbn in *; auto|left; exists r; auto].
Qed.
Lemma addRule_sane i st nt ks : forall p p', sane p -> addRule p i st nt ks = Some p' -> FinalState <= st < zlen (sts p) ->
  sane p' /\ (forall q, skip p' q -> skip p q \/ q = i /\ 0 <= st /\ exists k, In k ks /\ k < 0).
Proof.
  induction ks as [|k ks IH]; intros p p' S H B; cbn [addRule] in H.
  - injection H as <-. auto.
  - ob H. rename x into p1. destruct (addRule1_sane _ _ _ _ _ _ S H0 B) as (S1 & K1).
    assert (ZL : zlen (sts p1) = zlen (sts p)). { assert (A : addRule p i st nt [k] = Some p1) by (cbn [addRule]; rewrite H0; reflexivity). apply addRule_keeps in A. apply A. }
    destruct (IH p1 p' S1 H) as (S2 & K2); [lia|]. split; [exact S2|]. intros q X. apply K2 in X. destruct X as [X|(-> & P & k' & X & Y)].
    + apply K1 in X. destruct X as [X|(-> & X & Y)]; [auto|]. right. split; [reflexivity|]. split; [exact Y|]. exists k. cbn. auto.
    + right. split; [reflexivity|]. split; [exact P|]. exists k'. cbn. auto.
Qed.
Lemma copyRules_sane p i j p' : sane p -> copyRules p i j = Some p' -> ~ skip p j -> i <> j -> sane p' /\ (forall q, skip p' q -> skip p q).
Proof.
  intros [O FR CO RG] H NS NE. destruct (copyRules_spec _ _ _ _ O H) as (L & L' & F & O' & S).
  assert (ZL : zlen (sts p') = zlen (sts p)) by apply F.
  pose proof H as H'. unfold copyRules in H'. ob H'. rename x into f. rename H'0 into Gf. ob H'. rename x into e. rename H'0 into Ge.
  apply setState_inv in H'. destruct H' as (_ & _ & G' & PC). cbn [eNeg] in G'.
  destruct (putAll (eNeg f) (eNeg e) (eo_neg _ (O _ _ Ge)) (eo_neg _ (O _ _ Gf))) as (_ & PA).
  (* cells: old ones, or those of [j] *)
  assert (CELL : forall q eq k' id r, zget (sts p') q = Some eq -> In (k', (id, r)) (eNeg eq) ->
     (exists e0, zget (sts p) q = Some e0 /\ In (k', (id, r)) (eNeg e0)) \/ q = i /\ In (k', (id, r)) (eNeg f) /\ rState r < 0).
  { intros q eq k' id r Gq X. destruct (Z.eq_dec q i) as [->|N].
    - rewrite G' in Gq. injection Gq as <-. cbn [eNeg] in X. apply PA in X. destruct X as [X|(X & _)]; [|left; eauto]. right. split; [reflexivity|]. split; [exact X|].
      destruct (Z.lt_ge_cases (rState r) 0) as [LT|GE]; [exact LT|]. exfalso. apply NS. destruct (neg_has _ _ _ _ _ _ O Gf X). exists r. auto.
    - destruct F as (_ & F). rewrite (F q N) in Gq. left. eauto. }
  split; [split|].
  - exact O'.
  - intros q eq k' id r Gq X. rewrite PC. destruct (CELL _ _ _ _ _ Gq X) as [(e0 & G0 & X0)|(_ & X0 & _)]; [exact (FR _ _ _ _ _ G0 X0)|exact (FR _ _ _ _ _ Gf X0)].
  - intros a b ea eb k1 k2 id r1 r2 Ga Gb Xa Xb.
    destruct (CELL _ _ _ _ _ Ga Xa) as [(ea0 & Ga0 & Xa0)|(A1 & A2 & A3)]; destruct (CELL _ _ _ _ _ Gb Xb) as [(eb0 & Gb0 & Xb0)|(B1 & B2 & B3)].
    + exact (CO _ _ _ _ _ _ _ _ _ Ga0 Gb0 Xa0 Xb0).
    + destruct (CO _ _ _ _ _ _ _ _ _ Ga0 Gf Xa0 B2) as (C1 & C2 & C3). split; [exact C1|]. split; [exact C2|]. intros P. subst r2. lia.
    + destruct (CO _ _ _ _ _ _ _ _ _ Gf Gb0 A2 Xb0) as (C1 & C2 & C3). split; [exact C1|]. split; [exact C2|]. lia.
    + destruct (CO _ _ _ _ _ _ _ _ _ Gf Gf A2 B2) as (C1 & C2 & C3). split; [exact C1|]. split; [exact C2|]. congruence.
  - intros q r X. rewrite ZL. destruct (Z.eq_dec q i) as [->|N]; [|apply (RG q), (has_other _ _ _ _ _ F N), X].
    apply S in X. destruct X as [X|(X & _)]; eapply RG; eassumption.
  - intros q (r & X & K & T). destruct (Z.eq_dec q i) as [->|N]; [|exists r; split; [exact (has_other _ _ _ _ _ F N X)|auto]].
    apply S in X. destruct X as [X|(X & _)]; [|exists r; auto]. contradiction NS. exists r. auto.
Qed.
(** new states *)
Lemma grown_sane p p1 : sane p -> zlen (sts p) <= zlen (sts p1) -> prCells p <= prCells p1 -> (forall q, q < zlen (sts p) -> zget (sts p1) q = zget (sts p) q) ->
  (forall q, zlen (sts p) <= q < zlen (sts p1) -> zget (sts p1) q = Some (mkEntry 0 [] [])) -> sane p1 /\ (forall q, skip p1 q -> skip p q /\ q < zlen (sts p)).
Proof.
  intros [O FR CO RG] Z C OLD NEW.
  assert (ENT : forall q e, zget (sts p1) q = Some e -> zget (sts p) q = Some e \/ zlen (sts p) <= q /\ e = mkEntry 0 [] []).
  { intros q e G. pose proof (zget_Some_inv _ _ _ G) as Q. destruct (Z.lt_ge_cases q (zlen (sts p))) as [LT|GE].
    - rewrite OLD in G by exact LT. auto.
    - rewrite NEW in G by lia. injection G as <-. auto. }
  split; [split|].
  - intros q e G. destruct (ENT q e G) as [X|(_ & ->)]; [eapply O, X|apply empty_entryOk].
  - intros q e k id r G X. destruct (ENT q e G) as [Y|(_ & ->)]; [|destruct X]. specialize (FR _ _ _ _ _ Y X). lia.
  - intros a b ea eb k1 k2 id r1 r2 Ga Gb Xa Xb. destruct (ENT _ _ Ga) as [Ya|(_ & ->)]; [|destruct Xa]. destruct (ENT _ _ Gb) as [Yb|(_ & ->)]; [|destruct Xb].
    exact (CO _ _ _ _ _ _ _ _ _ Ya Yb Xa Xb).
  - intros q r (e & G & X). destruct (ENT q e G) as [Y|(_ & ->)]; [|destruct X]. assert (H : has p q r) by (exists e; auto). specialize (RG q r H). lia.
  - intros q (r & (e & G & X) & K). destruct (ENT q e G) as [Y|(_ & ->)]; [|destruct X]. split; [exists r; split; [exists e; auto|exact K]|]. apply zget_Some_inv in Y. lia.
Qed.

Section Build.
Variable firsts : list (list Z).
Hypothesis TF : tokensFirst firsts.

Definition memberA (c : chunk) : Prop := forall s n p p', buildStates firsts c s n p = Some p' -> sane p -> live p s -> FinalState <= n < zlen (sts p) ->
  skipsApart c (0 <=? n) = true -> sane p' /\ (skip p' s -> skip p s \/ leaves c (0 <=? n) = true).

(** *** Sequences *)
Fixpoint each (P : chunk -> Z -> Z -> Prop) (tail : Z) (l : list chunk) (states : list Z) : Prop :=
  match l, states with
  | c :: l', s :: ss => P c s (hd tail ss) /\ each P tail l' ss
  | _, _ => True
  end.
Lemma each_impl (P Q : chunk -> Z -> Z -> Prop) tail l : forall states, (forall c s n, In s states -> P c s n -> Q c s n) -> each P tail l states -> each Q tail l states.
Proof.
  induction l as [|c l IH]; intros states H E; [exact I|]. destruct states as [|s ss]; [exact I|]. cbn [each] in *. split; [apply H; [left; reflexivity|apply E]|].
  apply IH; [|apply E]. intros c' s' n' S. apply H. right. exact S.
Qed.
Lemma skip_same p p' q : zget (sts p') q = zget (sts p) q -> (skip p' q <-> skip p q).
Proof. intros E. unfold skip, has, hasRule. rewrite E. reflexivity. Qed.
Lemma skipsSeq_cons c l inner : l <> [] -> skipsSeq (c :: l) inner = true -> skipsApart c true = true /\ (isOptional c = true -> leavesSeq l inner = false) /\ skipsSeq l inner = true.
Proof.
  intros N H. destruct l as [|c' l]; [contradiction|]. cbn [skipsSeq] in H. apply andb_true_iff in H as [H H3]. apply andb_true_iff in H as [H1 H2]. split; [exact H1|]. split; [|exact H3].
  intros O. rewrite O in H2. apply negb_true_iff in H2. exact H2.
Qed.
Lemma seq_sane l : (forall c, In c l -> written c) -> (forall c, In c l -> memberA c) -> forall states tail p p',
  buildSeq firsts l states tail p = Some p' -> sane p -> length l = length states -> NoDup states -> (forall x, In x states -> live p x) -> FinalState <= tail < zlen (sts p) ->
  skipsSeq l (0 <=? tail) = true ->
  sane p' /\ each (fun c s n => skip p' s -> skip p s \/ leaves c (0 <=? n) = true) tail l states.
Proof.
  induction l as [|c l IH]; intros W M states tail p p' H S LE ND LV TL SK.
  - cbn in H. injection H as <-. split; [exact S|exact I].
  - destruct states as [|s ss]; [discriminate H|]. cbn [buildSeq] in H. ob H. rename x into pm. inversion ND as [|? ? N1 N2]; subst.
    pose proof (W c (or_introl eq_refl)) as Wc. pose proof (build_zlen _ _ _ _ _ _ Wc H0) as Z1.
    assert (HB : FinalState <= hd tail ss < zlen (sts p)).
    { destruct ss as [|x ss]; [exact TL|]. cbn [hd]. specialize (LV x (or_intror (or_introl eq_refl))). unfold live, FinalState in *. lia. }
    assert (SKc : skipsApart c (0 <=? hd tail ss) = true /\ skipsSeq l (0 <=? tail) = true).
    { destruct l as [|c' l].
      - destruct ss as [|x ss]; [|discriminate LE]. split; [exact SK|reflexivity].
      - destruct ss as [|x ss]; [discriminate LE|]. apply skipsSeq_cons in SK; [|discriminate]. cbn [hd]. specialize (LV x (or_intror (or_introl eq_refl))). unfold live in LV.
        destruct (Z.leb_spec 0 x); [tauto|lia]. }
    destruct SKc as (SK1 & SK2).
    destruct (M c (or_introl eq_refl) s (hd tail ss) p pm H0 S (LV s (or_introl eq_refl)) HB SK1) as (S1 & K1).
    pose proof (build_keeps _ _ Wc _ _ _ _ H0 (LV s (or_introl eq_refl))) as KP.
    assert (LV' : forall x, In x ss -> live pm x) by (intros x X; specialize (LV x (or_intror X)); unfold live in *; lia).
    destruct (IH (fun c' C => W c' (or_intror C)) (fun c' C => M c' (or_intror C)) ss tail pm p' H S1 ltac:(cbn in LE; lia) N2 LV' ltac:(lia) SK2) as (S2 & E2).
    split; [exact S2|]. cbn [each]. split.
    + destruct (seq_keeps firsts l (fun c' C => W c' (or_intror C)) _ _ _ _ H LV') as (_ & F2). specialize (LV s (or_introl eq_refl)). unfold live in LV.
      intros X. apply K1. apply (skip_same pm p' s); [|exact X]. apply F2; [lia|exact N1].
    + eapply each_impl; [|exact E2]. intros c' s' n' I' X Y. destruct (X Y) as [A|A]; [|auto]. left. specialize (LV s' (or_intror I')). unfold live in LV.
      apply (skip_same p pm s'); [|exact A]. apply KP; [lia|]. intros ->. contradiction.
Qed.

(** *** Copying back *)
Fixpoint marks (p : pres) (B : Z -> Prop) (inner : bool) (l : list chunk) (states : list Z) : Prop :=
  match l, states with
  | c :: l', s :: ss => (skip p s -> B s \/ (match l' with [] => leaves c inner || (isOptional c && inner) | _ => leaves c true end) = true) /\ marks p B inner l' ss
  | _, _ => True
  end.
Lemma copyBack_sane B inner l : forall states p p', copyBack l states p = Some p' -> sane p -> length l = length states -> NoDup states -> l <> [] ->
  (forall x, In x (tl states) -> ~ B x) -> skipsSeq l inner = true -> marks p B inner l states ->
  sane p' /\ (skip p' (hd 0 states) -> B (hd 0 states) \/ leavesSeq l inner = true).
Proof.
  induction l as [|c l IH]; intros states p p' H S LE ND NE NB SK M; [contradiction|].
  destruct l as [|c' l].
  - destruct states as [|s [|? ?]]; try discriminate. cbn in H. injection H as <-. split; [exact S|]. cbn [hd leavesSeq]. apply M.
  - destruct states as [|s [|s' states]]; try discriminate.
    change (copyBack (c :: c' :: l) (s :: s' :: states) p) with
      (do p <- copyBack (c' :: l) (s' :: states) p; if isOptional c then copyRules p s s' else Some p) in H.
    ob H. rename x into p1. inversion ND as [|? ? N1 N2]; subst. destruct M as (M1 & M2).
    apply skipsSeq_cons in SK; [|discriminate]. destruct SK as (_ & SK1 & SK2).
    destruct (IH (s' :: states) p p1 H0 S ltac:(cbn in *; lia) N2 ltac:(discriminate) (fun x X => NB x (or_intror X)) SK2 M2) as (S1 & K1). cbn [hd] in K1 |- *.
    destruct (copyBack_keeps _ _ _ _ H0) as (_ & KB).
    assert (SS : skip p1 s -> B s \/ leavesSeq (c :: c' :: l) inner = true).
    { intros X. apply (skip_same p p1 s) in X. 2:{ apply KB. intros C. apply N1. revert C. apply removelast_In. }
      apply M1 in X. destruct X as [X|X]; [auto|]. right. cbn [leavesSeq]. apply orb_true_iff. left. exact X. }
    destruct (isOptional c) eqn:OC.
    + assert (NS : ~ skip p1 s').
      { intros X. apply K1 in X. destruct X as [X|X]; [apply (NB s'); [left; reflexivity|exact X]|]. rewrite (SK1 eq_refl) in X. discriminate. }
      destruct (copyRules_sane _ _ _ _ S1 H NS) as (S2 & K2). { intros ->. apply N1. left. reflexivity. }
      split; [exact S2|]. intros X. apply SS, K2, X.
    + injection H as <-. auto.
Qed.

Lemma marks_of p2 p3 (B : Z -> Prop) tail lc ls l0 : forall st0, length l0 = length st0 -> NoDup (st0 ++ [ls]) -> (forall x, In x (st0 ++ [ls]) -> 0 <= x) ->
  each (fun c s n => skip p2 s -> B s \/ leaves c (0 <=? n) = true) tail (l0 ++ [lc]) (st0 ++ [ls]) ->
  (forall q, skip p3 q -> skip p2 q \/ q = ls /\ isOptional lc = true /\ 0 <= tail) ->
  marks p3 B (0 <=? tail) (l0 ++ [lc]) (st0 ++ [ls]).
Proof.
  induction l0 as [|c l0 IH]; intros st0 LE ND NN E K; destruct st0 as [|s st0]; try discriminate.
  - cbn [app marks each hd] in *. split; [|exact I]. intros X. apply K in X. destruct X as [X|(_ & X & Y)].
    + destruct E as (E & _). destruct (E X) as [A|A]; [auto|]. right. rewrite A. reflexivity.
    + right. rewrite X. destruct (Z.leb_spec 0 tail); [|lia]. apply orb_true_r.
  - cbn [app marks each] in *. apply NoDup_cons_iff in ND as (N1 & N2). split.
    + destruct (l0 ++ [lc]) eqn:EL; [destruct l0; discriminate|]. intros X. apply K in X. destruct X as [X|(X & _)].
      * destruct E as (E & _). destruct (E X) as [A|A]; [auto|]. right. destruct (st0 ++ [ls]) as [|x ss] eqn:ES; [destruct st0; discriminate|]. cbn [hd] in A.
        specialize (NN x (or_intror (or_introl eq_refl))). destruct (Z.leb_spec 0 x); [exact A|lia].
      * exfalso. apply N1. rewrite X. apply in_app_iff. right. left. reflexivity.
    + apply IH; [cbn in LE; lia|exact N2|intros x X; apply NN; right; exact X|apply E|exact K].
Qed.

Theorem share_build c : written c -> memberA c.
Proof.
  induction c as [t| |i|opt rep l IH|l IH] using chunk_nest; intros W s n p p' H S LV B SK.
  - cbn in H. ob H. injection H as <-. destruct (addRule1_sane _ _ _ _ _ _ S H0 B) as (S' & K). split; [exact S'|]. intros X. apply K in X. inversion W. destruct X as [X|X]; [auto|lia].
  - cbn in H. ob H. injection H as <-. destruct (addRule1_sane _ _ _ _ _ _ S H0) as (S' & K). { unfold FinalState in *. pose proof (zlen_nonneg (sts p)). lia. }
    split; [exact S'|]. intros X. apply K in X. destruct X as [X|(_ & _ & X)]; [auto|]. unfold FinalState in X. lia.
  - change (buildStates firsts (CNode i) s n p) with (addRule p s n i (firstsOf firsts i)) in H.
    destruct (addRule_sane _ _ _ _ _ _ S H B) as (S' & K). split; [exact S'|]. intros X. apply K in X. destruct X as [X|(_ & _ & k & X & Y)]; [auto|].
    apply TF in X. lia.
  - inversion W as [| | | |? ? ? NE RO WL]; subst.
    destruct (group_parts _ _ _ _ _ _ _ _ LV H) as (first & rest & p1 & p2 & p3 & p4 & ls & G). destruct G as [gp_len0 gp_first0 gp_rest0 gp_nodup0 gp_zlen0 gp_old0 gp_new0 gp_seq0 gp_last0 gp_copy0 gp_extra0 gp_cells0].
    rewrite skips_group in SK. apply andb_true_iff in SK as (SK & SR). rewrite leaves_group. rename gp_last0 into GL.
    set (tail := if rep then s else n) in *.
    assert (INN : rep || (0 <=? n) = (0 <=? tail)).
    { unfold tail. destruct rep; [|reflexivity]. unfold live in LV. destruct (Z.leb_spec 0 s); [reflexivity|lia]. }
    rewrite INN in *.
    assert (TB : FinalState <= tail < zlen (sts p)). { unfold tail. destruct rep; [unfold live, FinalState in *; lia|exact B]. }
    assert (LVS : forall x, In x (first :: rest) -> live p1 x).
    { intros x X. unfold live in *. destruct X as [<-|X]; [|specialize (gp_rest0 x X); pose proof (zlen_nonneg (sts p)); lia].
      destruct gp_first0 as [(-> & _)|(Q & _)]; pose proof (zlen_nonneg (sts p)); lia. }
    destruct (grown_sane p p1 S gp_zlen0 ltac:(lia) gp_old0 gp_new0) as (S1 & K1).
    assert (LE : length l = length (first :: rest)). { cbn [length]. rewrite gp_len0. destruct l; [contradiction|cbn; lia]. }
    destruct (seq_sane l WL (fun c C => IH c C (WL c C)) _ _ _ _ gp_seq0 S1 LE gp_nodup0 LVS ltac:(lia) SK) as (S2 & E2).
    destruct (seq_keeps firsts l WL _ _ _ _ gp_seq0 LVS) as (Z12 & F12).
    destruct GL as (lc & l0 & st0 & EL & ES & LEN & BP).
    assert (X3 : sane p3 /\ (forall q, skip p3 q -> skip p2 q \/ q = ls /\ isOptional lc = true /\ 0 <= tail)).
    { destruct (isOptional lc).
      - destruct (addRule_sane _ _ _ _ _ _ S2 BP ltac:(lia)) as (S3 & K3). split; [exact S3|]. intros q X. apply K3 in X. tauto.
      - injection BP as <-. auto. }
    destruct X3 as (S3 & K3).
    assert (M3 : marks p3 (skip p) (0 <=? tail) l (first :: rest)).
    { rewrite EL, ES. apply (marks_of p2); [exact LEN|rewrite <- ES; exact gp_nodup0| |rewrite <- EL, <- ES|exact K3].
      - intros x X. rewrite <- ES in X. specialize (LVS x X). unfold live in LVS. lia.
      - eapply each_impl; [|exact E2]. cbv beta. intros c s0 n0 _ X Y. destruct (X Y) as [A|A]; [left; apply K1, A|right; exact A]. }
    assert (NB : forall x, In x (tl (first :: rest)) -> ~ skip p x).
    { intros x X (r & (e & G & _) & _). specialize (gp_rest0 x X). apply zget_Some_inv in G. lia. }
    destruct (copyBack_sane (skip p) (0 <=? tail) l _ _ _ gp_copy0 S3 LE gp_nodup0 NE NB SK M3) as (S4 & K4). cbn [hd] in K4.
    destruct gp_first0 as [(-> & NX)|(FN & NX)]; rewrite NX in gp_extra0.
    + injection gp_extra0 as <-. auto.
    + assert (FS : first <> s) by (unfold live in LV; lia).
      assert (NS : ~ skip p4 first).
      { intros X. apply K4 in X. destruct X as [(r & (e & G & _) & _)|X]; [apply zget_Some_inv in G; lia|]. rewrite NX, X in SR. discriminate. }
      destruct (copyRules_sane _ _ _ _ S4 gp_extra0 NS ltac:(congruence)) as (S5 & K5). split; [exact S5|]. intros X. left. apply K5 in X.
      assert (NI : ~ In s (first :: rest)). { intros [C|C]; [contradiction|]. specialize (gp_rest0 s C). unfold live in LV. lia. }
      destruct (copyBack_keeps _ _ _ _ gp_copy0) as (_ & KB).
      apply (skip_same p3 p4 s) in X; [|apply KB; intros C; apply NI, removelast_In, C].
      apply K3 in X. destruct X as [X|(-> & _)].
      * apply (skip_same p1 p2 s) in X; [|apply F12; [unfold live in LV; lia|exact NI]]. apply K1 in X. apply X.
      * exfalso. apply NI. rewrite ES. apply in_app_iff. right. left. reflexivity.
  - inversion W as [| | |? NE WL|]; subst. rewrite buildStates_var in H. cbn [skipsApart leaves] in *. clear W NE. revert p H S LV B.
    induction l as [|c l IL]; intros p H S LV B; cbn [buildVar] in H.
    + injection H as <-. auto.
    + ob H. rename x into pm. cbn [forallb existsb] in *. apply andb_true_iff in SK as (SK1 & SK2).
      pose proof (WL c (or_introl eq_refl)) as Wc. pose proof (build_zlen _ _ _ _ _ _ Wc H0) as Z1.
      destruct (IH c (or_introl eq_refl) Wc s n p pm H0 S LV B SK1) as (S1 & K1).
      destruct (IL (fun c' C => IH c' (or_intror C)) SK2 (fun c' C => WL c' (or_intror C)) pm H S1) as (S2 & K2); [unfold live in *; lia|lia|].
      split; [exact S2|]. intros X. apply K2 in X. destruct X as [X|X]; [apply K1 in X; destruct X as [X|X]; [auto|]|]; rewrite X; rewrite ?orb_true_r; auto.
Qed.

(** *** All the nodes *)
Lemma nodes_sane defs : (forall d, In d defs -> written d /\ skipsApart d false = true) -> forall p fs p', buildNodes firsts defs p = Some (fs, p') -> sane p ->
  sane p' /\ zlen (sts p) <= zlen (sts p') /\ (forall f, In f fs -> 0 <= f < zlen (sts p')).
Proof.
  induction defs as [|d ds IH]; intros W p fs p' H S; cbn [buildNodes] in H.
  - injection H as <- <-. split; [exact S|]. split; [lia|]. intros f [].
  - destruct (addState p) as (first, p1) eqn:A. ob H. rename x into p2. ob H. destruct x as (fs', p3). injection H as <- <-.
    apply addState_spec in A. destruct A as (-> & A2 & A3 & A4 & A5). pose proof (zlen_nonneg (sts p)) as ZN.
    destruct (grown_sane p p1 S ltac:(lia) ltac:(lia)) as (S1 & _). { intros q Q. apply A3. lia. } { intros q Q. replace q with (zlen (sts p)) by lia. exact A4. }
    destruct (W d (or_introl eq_refl)) as (Wd & Sd).
    destruct (share_build d Wd _ _ _ _ H0 S1) as (S2 & _); [unfold live; lia|unfold FinalState; lia|exact Sd|].
    destruct (IH (fun d' D => W d' (or_intror D)) _ _ _ H1 S2) as (S3 & Z3 & R3).
    pose proof (build_zlen _ _ _ _ _ _ Wd H0). split; [exact S3|]. split; [lia|]. intros f [<-|F]; [lia|apply R3, F].
Qed.
End Build.
