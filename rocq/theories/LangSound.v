(** The state machine of a definition accepts nothing but strings of the definition. *)
From Coq Require Import ZArith List Bool Lia.
From Verif Require Import Base BaseProofs Grammar LangBuild LangSpec LangProofs LangFrame LangComplete.
Import ListNotations.
Open Scope Z_scope.

Section Sound.
Variable firsts : list (list Z).
Variable starts : Z -> Z -> Prop.
Hypothesis SUB : forall i t, LangComplete.starts firsts i t -> starts i t.
(** every node begins with something *)
Hypothesis PR : forall i, exists t, starts i t.

Definition lang := list sym -> Prop.
Definition cat (c : chunk) (K : lang) : lang := fun x => exists w v, derives starts c w /\ K v /\ x = cut (w ++ v).
Definition catSeq (l : list chunk) (K : lang) : lang := fun x => exists w v, derivesSeq starts l w /\ K v /\ x = cut (w ++ v).
Definition fine (K : lang) : Prop := (exists x, K x) /\ forall x, K x -> cut x = x.

Lemma cut_cut w : cut (cut w) = cut w.
Proof. exact (cut_app_cut [] w). Qed.
Lemma derives_some c : written c -> exists w, derives starts c w.
Proof.
  induction c as [t| |i|opt rep l IH|l IH] using chunk_nest; intros W.
  - eexists. constructor.
  - eexists. constructor.
  - destruct (PR i) as (t & T). eexists. constructor. exact T.
  - inversion W as [| | | |? ? ? NE RO WL]; subst.
    assert (X : exists w, derivesSeq starts l w).
    { clear W NE RO. induction l as [|c l IL]; [eexists; constructor|].
      destruct (IH c (or_introl eq_refl) (WL c (or_introl eq_refl))) as (w & D).
      destruct IL as (v & DS); [intros c' C; apply IH; right; exact C|intros c' C; apply WL; right; exact C|]. exists (w ++ v). constructor; assumption. }
    destruct X as (w & D). exists w. apply D_once, D.
  - inversion W as [| | |? NE WL|]; subst. destruct l as [|c l]; [contradiction|].
    destruct (IH c (or_introl eq_refl) (WL c (or_introl eq_refl))) as (w & D). exists w. eapply D_variant; [left; reflexivity|exact D].
Qed.
Lemma derivesSeq_some l : (forall c, In c l -> written c) -> exists w, derivesSeq starts l w.
Proof.
  induction l as [|c l IH]; intros W; [eexists; constructor|].
  destruct (derives_some c (W c (or_introl eq_refl))) as (w & D). destruct IH as (v & DS); [intros c' C; apply W; right; exact C|].
  exists (w ++ v). constructor; assumption.
Qed.
Lemma catSeq_fine l K : (forall c, In c l -> written c) -> fine K -> fine (catSeq l K).
Proof.
  intros W ((v & V) & _). split.
  - destruct (derivesSeq_some l W) as (w & D). exists (cut (w ++ v)), w, v. auto.
  - intros x (w & v' & _ & _ & ->). apply cut_cut.
Qed.
Lemma cat_cons c l K x : cat c (catSeq l K) x <-> catSeq (c :: l) K x.
Proof.
  split.
  - intros (w & y & D & (w' & v & D' & V & ->) & ->). exists (w ++ w'), v. split; [constructor; assumption|]. split; [exact V|].
    rewrite cut_app_cut, app_assoc. reflexivity.
  - intros (w & v & D & V & ->). inversion D as [|? ? w0 w1 D0 D1]; subst. exists w0, (cut (w1 ++ v)). split; [exact D0|].
    split; [exists w1, v; auto|]. rewrite cut_app_cut, app_assoc. reflexivity.
Qed.
Lemma catSeq_nil K x : fine K -> (catSeq [] K x <-> K x).
Proof.
  intros (_ & F). split.
  - intros (w & v & D & V & ->). inversion D; subst. cbn [app]. rewrite F by exact V. exact V.
  - intros V. exists [], x. split; [constructor|]. split; [exact V|]. cbn [app]. symmetry. apply F, V.
Qed.
Lemma cat_one c K x : fine K -> (cat c K x <-> catSeq [c] K x).
Proof.
  intros F. rewrite <- cat_cons. split; intros (w & v & D & V & ->); exists w, v; (split; [exact D|]; split; [|reflexivity]); apply (catSeq_nil K v F), V.
Qed.
Lemma cat_skip c K x : written c -> isOptional c = true -> fine K -> K x -> cat c K x.
Proof. intros W O (_ & F) V. exists [], x. split; [apply optional_derives; assumption|]. split; [exact V|]. symmetry. apply F, V. Qed.

(** ** Assignments of languages to states *)
Definition assignment := Z -> lang.
Definition consistent (den : assignment) (q : Z) (r : rule) : Prop := forall u, den (rState r) u -> den q (label r ++ u).
Definition good (den : assignment) (p : pres) (q : Z) (r : rule) : Prop := rState r < zlen (sts p) /\ consistent den q r.
(** the rules added are consistent with the assignment *)
Definition adds (den : assignment) (p p' : pres) : Prop := forall q r, has p' q r -> has p q r \/ good den p' q r.
Definition agree (den den' : assignment) (p : pres) : Prop := forall q, q < zlen (sts p) -> den q = den' q.
Definition req (den : assignment) (c : chunk) (s n : Z) : Prop :=
  (forall x, cat c (den n) x -> den s x) /\ (beginsLoop c = true -> forall x, den s x -> cat c (den n) x).

Lemma has_live p q r : has p q r -> live p q.
Proof. intros (e & G & _). apply zget_Some_inv in G. exact G. Qed.
Lemma good_agree den den' p p' q r : agree den den' p -> zlen (sts p) <= zlen (sts p') -> q < zlen (sts p) -> good den p q r -> good den' p' q r.
Proof.
  intros A Z Q (T & C). split; [lia|]. unfold consistent in *. rewrite <- (A q Q), <- (A (rState r) T). exact C.
Qed.
Lemma adds_trans den den' p p' p'' : adds den p p' -> agree den den' p' -> zlen (sts p') <= zlen (sts p'') -> adds den' p' p'' -> adds den' p p''.
Proof.
  intros A AG Z B q r X. apply B in X. destruct X as [X|X]; [|auto]. pose proof (has_live _ _ _ X) as LV. apply A in X. destruct X as [X|X]; [auto|].
  right. eapply good_agree; [exact AG|exact Z| |exact X]. unfold live in LV. lia.
Qed.
Lemma adds_refl den p : adds den p p.
Proof. intros q r X. auto. Qed.

Definition memberS (c : chunk) : Prop := forall s n p p' den, buildStates firsts c s n p = Some p' -> okP p -> live p s -> n < zlen (sts p) ->
  (forall q, fine (den q)) -> (forall u, den FinalState u -> u = []) -> req den c s n ->
  exists den', agree den den' p /\ (forall q, fine (den' q)) /\ adds den' p p'.

Lemma addRule_adds den i st nt : forall ks p p', okP p -> addRule p i st nt ks = Some p' -> st < zlen (sts p) ->
  (forall k, In k ks -> consistent den i (mkRule k st nt)) -> adds den p p'.
Proof.
  induction ks as [|k ks IH]; intros p p' O H Q C; cbn [addRule] in H.
  - injection H as <-. apply adds_refl.
  - ob H. rename x into p1. destruct (addRule1_spec _ _ _ _ _ _ O H0) as (L & F & O1 & S).
    assert (Z1 : zlen (sts p1) = zlen (sts p)) by apply F.
    eapply (adds_trans den den p p1 p'); [|intros q _; reflexivity| |].
    + intros q r X. destruct (Z.eq_dec q i) as [->|NE]; [|left; apply (has_onlyAt _ _ _ _ _ F NE), X].
      apply S in X. destruct X as [->|[X _]]; [|auto]. right. split; [cbn [rState]; lia|apply C; left; reflexivity].
    + destruct (addRule_keeps _ _ _ _ _ _ H) as (_ & ->). lia.
    + apply (IH _ _ O1 H); [lia|]. intros k' K. apply C. right. exact K.
Qed.

(** *** Sequences *)
Fixpoint reqs (den : assignment) (tail : Z) (l : list chunk) (states : list Z) : Prop :=
  match l, states with
  | c :: l', s :: ss => req den c s (hd tail ss) /\ reqs den tail l' ss
  | _, _ => True
  end.
Lemma req_agree den den' p c s n : agree den den' p -> s < zlen (sts p) -> n < zlen (sts p) -> req den c s n -> req den' c s n.
Proof. intros A S N R. unfold req in *. rewrite <- (A s S), <- (A n N). exact R. Qed.
Lemma hd_lt ss tail b : (forall x, In x ss -> x < b) -> tail < b -> hd tail ss < b.
Proof. destruct ss as [|x ss]; [auto|]. cbn [hd]. intros H _. apply H. left. reflexivity. Qed.
Lemma reqs_agree den den' p tail l : forall states, agree den den' p -> (forall x, In x states -> live p x) -> tail < zlen (sts p) -> reqs den tail l states -> reqs den' tail l states.
Proof.
  induction l as [|c l IH]; intros states A LV TL R; [exact I|]. destruct states as [|s ss]; [exact I|]. cbn [reqs] in *. split.
  - eapply req_agree; [exact A| | |apply R].
    + specialize (LV s (or_introl eq_refl)). unfold live in LV. lia.
    + apply hd_lt; [|exact TL]. intros x X. specialize (LV x (or_intror X)). unfold live in LV. lia.
  - apply IH; [exact A|intros x X; apply LV; right; exact X|exact TL|apply R].
Qed.
Lemma seq_adds l : (forall c, In c l -> written c) -> (forall c, In c l -> memberS c) -> forall states tail p p' den,
  buildSeq firsts l states tail p = Some p' -> okP p -> (forall x, In x states -> live p x) -> tail < zlen (sts p) ->
  (forall q, fine (den q)) -> (forall u, den FinalState u -> u = []) -> reqs den tail l states ->
  exists den', agree den den' p /\ (forall q, fine (den' q)) /\ adds den' p p' /\ zlen (sts p) <= zlen (sts p') /\ okP p'.
Proof.
  induction l as [|c l IH]; intros W M states tail p p' den H O LV TL F DF R.
  - cbn in H. injection H as <-. exists den. split; [intros q _; reflexivity|]. split; [exact F|]. split; [apply adds_refl|]. split; [lia|exact O].
  - destruct states as [|s ss]; [discriminate H|]. cbn [buildSeq] in H. ob H. rename x into pm. cbn [reqs] in R. destruct R as (R1 & R2).
    pose proof (W c (or_introl eq_refl)) as Wc. pose proof (build_zlen _ _ _ _ _ _ Wc H0) as Z1.
    assert (HL : hd tail ss < zlen (sts p)). { apply hd_lt; [|exact TL]. intros x X. specialize (LV x (or_intror X)). unfold live in LV. lia. }
    destruct (M c (or_introl eq_refl) s (hd tail ss) p pm den H0 O (LV s (or_introl eq_refl)) HL F DF R1) as (den1 & A1 & F1 & AD1).
    assert (O1 : okP pm) by (eapply build_ok; eassumption).
    destruct (IH (fun c' C => W c' (or_intror C)) (fun c' C => M c' (or_intror C)) ss tail pm p' den1 H O1) as (den2 & A2 & F2 & AD2 & Z2 & O2).
    + intros x X. specialize (LV x (or_intror X)). unfold live in *. lia.
    + lia.
    + exact F1.
    + intros u U. rewrite <- (A1 FinalState) in U; [apply DF, U|]. unfold FinalState. pose proof (zlen_nonneg (sts p)). lia.
    + eapply reqs_agree; [exact A1| |exact TL|exact R2]. intros x X. apply LV. right. exact X.
    + exists den2. split; [intros q Q; rewrite (A1 q Q); apply A2; lia|]. split; [exact F2|]. split; [|split; [lia|exact O2]].
      eapply adds_trans; [exact AD1|exact A2|exact Z2|exact AD2].
Qed.

(** *** Copying back *)
Lemma copyBack_adds den tail l : forall states p p', copyBack l states p = Some p' -> okP p -> length l = length states -> NoDup states ->
  (forall c, In c l -> written c) -> (forall q, fine (den q)) -> reqs den tail l states ->
  (forall s r, In s (tl states) -> has p s r -> good den p s r) ->
  adds den p p' /\ zlen (sts p') = zlen (sts p) /\ okP p'.
Proof.
  induction l as [|c l IH]; intros states p p' H O LE ND W F R G.
  - cbn in H. injection H as <-. split; [apply adds_refl|auto].
  - destruct l as [|c' l]; [cbn in H; injection H as <-; split; [apply adds_refl|auto]|].
    destruct states as [|s [|s' states]]; try discriminate.
    change (copyBack (c :: c' :: l) (s :: s' :: states) p) with
      (do p <- copyBack (c' :: l) (s' :: states) p; if isOptional c then copyRules p s s' else Some p) in H.
    ob H. rename x into p1. inversion ND as [|? ? N1 N2]; subst. cbn [reqs hd] in R. destruct R as (R1 & R2).
    destruct (IH (s' :: states) p p1 H0 O) as (AD & Z1 & O1); [cbn in *; lia|exact N2|intros c0 C; apply W; right; exact C|exact F|exact R2| |].
    { cbn [tl] in *. intros q r Q. apply G. right. exact Q. }
    destruct (isOptional c) eqn:OC; [|injection H as <-; auto].
    destruct (copyRules_spec _ _ _ _ O1 H) as (L & L' & FO & O' & S). assert (Z2 : zlen (sts p') = zlen (sts p1)) by apply FO.
    split; [|split; [lia|exact O']].
    eapply (adds_trans den den p p1 p'); [exact AD|intros q _; reflexivity|lia|].
    intros q r X. destruct (Z.eq_dec q s) as [->|NE]; [|left; apply (has_onlyAt _ _ _ _ _ FO NE), X].
    apply S in X. destruct X as [X|[X _]]; [|auto]. right.
    assert (GR : good den p1 s' r).
    { apply AD in X. destruct X as [X|X]; [|exact X]. apply (good_agree den den p p1); [intros z _; reflexivity|lia| |].
      - pose proof (has_live _ _ _ X) as LV. unfold live in LV. lia.
      - apply G; [left; reflexivity|exact X]. }
    destruct GR as (T & C). split; [lia|]. intros u U. apply R1. apply cat_skip; [apply W; left; reflexivity|exact OC|apply F|]. apply C, U.
Qed.

(** *** Languages of the states of a group *)
Fixpoint assign (l : list chunk) (states : list Z) (K : lang) (den : assignment) (q : Z) : lang :=
  match l, states with
  | c :: l', s :: ss => if q =? s then catSeq (c :: l') K else assign l' ss K den q
  | _, _ => den q
  end.
Lemma assign_other l : forall states K den q, ~ In q states -> assign l states K den q = den q.
Proof.
  induction l as [|c l IH]; intros states K den q N; [reflexivity|]. destruct states as [|s ss]; [reflexivity|]. cbn [assign].
  destruct (Z.eqb_spec q s) as [->|NE]; [contradiction N; left; reflexivity|]. apply IH. intros C. apply N. right. exact C.
Qed.
Lemma assign_fine l : (forall c, In c l -> written c) -> forall states K den, fine K -> (forall q, fine (den q)) -> forall q, fine (assign l states K den q).
Proof.
  induction l as [|c l IH]; intros W states K den FK F q; [apply F|]. destruct states as [|s ss]; [apply F|]. cbn [assign].
  destruct (q =? s); [apply catSeq_fine; assumption|]. apply IH; auto. intros c' C. apply W. right. exact C.
Qed.
(** requirements of a sequence *)
Lemma reqs_assign den tail K l : forall states, (forall c, In c l -> written c) -> length l = length states -> NoDup states -> ~ In tail states -> den tail = K -> fine K ->
  reqs (assign l states K den) tail l states.
Proof.
  induction l as [|c l IH]; intros states W LE ND NT DK FK; [exact I|]. destruct states as [|s ss]; [exact I|]. cbn [reqs].
  inversion ND as [|? ? N1 N2]; subst.
  assert (X : reqs (assign l ss (den tail) den) tail l ss).
  { apply IH; [intros c' C; apply W; right; exact C|cbn in *; lia|exact N2|intros C; apply NT; right; exact C|reflexivity|exact FK]. }
  assert (Y : forall q, q <> s -> assign (c :: l) (s :: ss) (den tail) den q = assign l ss (den tail) den q).
  { intros q N. cbn [assign]. destruct (Z.eqb_spec q s); [contradiction|reflexivity]. }
  assert (RR : forall l0 ss0, incl ss0 ss -> reqs (assign l ss (den tail) den) tail l0 ss0 -> reqs (assign (c :: l) (s :: ss) (den tail) den) tail l0 ss0).
  { induction l0 as [|c0 l0 IL]; intros ss0 I0 R; [exact I|]. destruct ss0 as [|s0 ss0]; [exact I|]. cbn [reqs] in *. split.
    - unfold req in *. rewrite !Y; [apply R| |].
      + intros ->. apply N1, I0. left. reflexivity.
      + destruct ss0 as [|s1 ss0]; cbn [hd]; [intros ->; apply NT; left; reflexivity|]. intros ->. apply N1, I0. right. left. reflexivity.
    - apply IL; [|apply R]. intros z Z0. apply I0. right. exact Z0. }
  split; [|apply RR; [apply incl_refl|exact X]].
  assert (E1 : assign (c :: l) (s :: ss) (den tail) den s = catSeq (c :: l) (den tail)) by (cbn [assign]; rewrite Z.eqb_refl; reflexivity).
  assert (E2 : forall x, assign (c :: l) (s :: ss) (den tail) den (hd tail ss) x <-> catSeq l (den tail) x).
  { intros x. destruct l as [|c' l]; destruct ss as [|s' ss]; try discriminate LE.
    - cbn [hd]. rewrite assign_other by exact NT. symmetry. apply catSeq_nil, FK.
    - cbn [hd]. rewrite Y by (intros ->; apply N1; left; reflexivity). cbn [assign]. rewrite Z.eqb_refl. reflexivity. }
  unfold req. rewrite E1. split.
  - intros x (w & v & D & V & ->). apply cat_cons. exists w, v. split; [exact D|]. split; [apply E2, V|reflexivity].
  - intros _ x V. apply cat_cons in V. destruct V as (w & v & D & V & ->). exists w, v. split; [exact D|]. split; [apply E2, V|reflexivity].
Qed.

Lemma group_again opt l K x : catSeq l (cat (CGroup opt true l) K) x -> cat (CGroup opt true l) K x.
Proof.
  intros (w & y & D & (w' & v & D' & V & ->) & ->). exists (w ++ w'), v. split; [apply D_again; assumption|]. split; [exact V|].
  rewrite cut_app_cut, app_assoc. reflexivity.
Qed.

Lemma zlen_one {A} (l : list A) : l <> [] -> (1 <? zlen l) = false -> exists x, l = [x].
Proof. destruct l as [|x [|y l]]; intros N H; [contradiction|eauto|]. unfold zlen in H. cbn [length] in H. apply Z.ltb_ge in H. lia. Qed.

Lemma group_sound opt rep l : (forall c, In c l -> written c) -> (forall c, In c l -> memberS c) -> l <> [] -> (rep = true -> opt = true) ->
  loopsApart (CGroup opt rep l) = true -> memberS (CGroup opt rep l).
Proof.
  intros W M NE RO LA s n p p' den H O LV NL F DF (RQ1 & RQ2).
  destruct (group_parts _ _ _ _ _ _ _ _ LV H) as (first & rest & p1 & p2 & p3 & p4 & ls & G).
  destruct G as [gp_len0 gp_first0 gp_rest0 gp_nodup0 gp_zlen0 gp_old0 gp_new0 gp_seq0 gp_last0 gp_copy0 gp_extra0 gp_cells0].
  pose proof (zlen_nonneg (sts p)) as ZP.
  assert (LVS : forall x, In x (first :: rest) -> live p1 x).
  { intros x X. unfold live in *. destruct X as [<-|X]; [|specialize (gp_rest0 x X); lia].
    destruct gp_first0 as [(-> & _)|(Q & _)]; lia. }
  set (tail := if rep then s else n) in *.
  assert (TL : tail < zlen (sts p)) by (unfold tail, live in *; destruct rep; lia).
  assert (O1 : okP p1) by (eapply grown_ok; eassumption).
  assert (NT : ~ In tail rest) by (intros C; specialize (gp_rest0 _ C); lia).
  assert (LE : length l = length (first :: rest)). { cbn [length]. rewrite gp_len0. destruct l; [contradiction|cbn; lia]. }
  assert (P1 : forall q r, has p1 q r -> has p q r).
  { intros q r (e & GE & Y). pose proof (zget_Some_inv _ _ _ GE) as Q. destruct (Z.lt_ge_cases q (zlen (sts p))) as [LT|GE'].
    - rewrite gp_old0 in GE by exact LT. exists e. auto.
    - rewrite gp_new0 in GE by lia. injection GE as <-. destruct Y. }
  (* the language of the whole group is closed *)
  assert (REP : rep = true -> forall x, catSeq l (den s) x -> den s x).
  { intros ->. intros x (w & v & D & V & ->). apply RQ1. apply RQ2 in V; [|reflexivity]. apply group_again. exists w, v. auto. }
  assert (ASG : exists den1, agree den den1 p /\ (forall q, fine (den1 q)) /\ reqs den1 tail l (first :: rest) /\
     (forall x, den1 first x -> den s x)).
  { destruct gp_first0 as [(EF & NX)|(FN & NX)].
    - (* the group begins in its entry state *)
      destruct l as [|c0 l']; [contradiction|]. cbn [length] in gp_len0. rewrite Nat.sub_succ, Nat.sub_0_r in gp_len0.
      subst first. apply NoDup_cons_iff in gp_nodup0. destruct gp_nodup0 as (N1 & N2).
      set (den1 := assign l' rest (den tail) den).
      assert (AG : agree den den1 p). { intros q Q. symmetry. apply assign_other. intros C. specialize (gp_rest0 _ C). lia. }
      assert (ES : den1 s = den s) by (symmetry; apply AG; unfold live in LV; lia).
      assert (WL' : forall c, In c l' -> written c) by (intros c C; apply W; right; exact C).
      assert (FI : forall q, fine (den1 q)) by (apply assign_fine; auto).
      exists den1. split; [exact AG|]. split; [exact FI|]. split; [|intros x; rewrite ES; auto].
      assert (RR : reqs den1 tail l' rest) by (apply reqs_assign; auto).
      cbn [reqs]. split; [|exact RR].
      assert (E2 : forall x, den1 (hd tail rest) x <-> catSeq l' (den tail) x).
      { intros x. unfold den1. destruct l' as [|c' l']; destruct rest as [|s' ss]; try discriminate gp_len0.
        - cbn [hd assign]. symmetry. apply catSeq_nil, F.
        - cbn [hd assign]. rewrite Z.eqb_refl. reflexivity. }
      assert (E3 : forall x, cat c0 (den1 (hd tail rest)) x <-> catSeq (c0 :: l') (den tail) x).
      { intros x. rewrite <- cat_cons. split; intros (w & v & D & V & ->); exists w, v; (split; [exact D|]; split; [apply E2, V|reflexivity]). }
      unfold req. rewrite ES. destruct rep.
      + cbn [andb] in NX. destruct (zlen_one _ NE NX) as (x0 & EQ). injection EQ as -> ->.
        split; [intros x X; apply (REP eq_refl); apply E3, X|]. intros BL x X. apply E3. apply cat_one; [apply F|].
        assert (OC : isOptional x0 = true).
        { cbn [loopsApart forallb] in LA. rewrite (RO eq_refl), BL in LA. cbn in LA. rewrite !andb_true_r, !orb_false_r in LA.
          apply andb_true_iff in LA. apply LA. }
        apply cat_skip; [apply W; left; reflexivity|exact OC|apply F|exact X].
      + unfold tail in *. split.
        * intros x X. apply RQ1. apply E3 in X. destruct X as (w & v & D & V & ->). exists w, v. split; [apply D_once, D|auto].
        * intros BL x X. apply E3. apply RQ2 in X; [|cbn; exact BL]. destruct X as (w & v & D & V & ->). exists w, v.
          split; [|auto]. inversion D as [| | | |? ? ? ? DS| |]; subst; [exact DS|].
          assert (OC : forallb isOptional (c0 :: l') = true).
          { cbn [loopsApart] in LA. rewrite BL in LA. cbn [negb orb andb] in LA. rewrite !orb_false_r in LA. apply andb_true_iff in LA. apply LA. }
          apply optionals_derive; [exact W|exact OC].
    - (* a repeated sequence with its own first state *)
      apply andb_true_iff in NX. destruct NX as (RT & NX). subst rep. unfold tail in *.
      set (den1 := assign l (first :: rest) (den s) den).
      assert (AG : agree den den1 p). { intros q Q. symmetry. apply assign_other. intros [C|C]; [lia|specialize (gp_rest0 _ C); lia]. }
      assert (FI : forall q, fine (den1 q)) by (apply assign_fine; auto).
      exists den1. split; [exact AG|]. split; [exact FI|]. split.
      + apply reqs_assign; auto. intros [C|C]; [lia|contradiction].
      + intros x X. apply (REP eq_refl). unfold den1 in X. destruct l as [|c0 l']; [contradiction|]. cbn [assign] in X. rewrite Z.eqb_refl in X. exact X. }
  destruct ASG as (den1 & AG1 & F1 & R1 & FS).
  assert (DF1 : forall u, den1 FinalState u -> u = []). { intros u U. apply DF. rewrite (AG1 FinalState) by (unfold FinalState; lia). exact U. }
  destruct (seq_adds l W M (first :: rest) tail p1 p2 den1 gp_seq0 O1 LVS ltac:(lia) F1 DF1 R1) as (den2 & AG2 & F2 & AD2 & Z2 & O2).
  assert (R2 : reqs den2 tail l (first :: rest)) by (eapply reqs_agree; [exact AG2|exact LVS|lia|exact R1]).
  assert (AGP : agree den den2 p). { intros q Q. rewrite (AG1 q Q). apply AG2. lia. }
  exists den2. split; [exact AGP|]. split; [exact F2|].
  destruct gp_last0 as (lc & l0 & st0 & EL & ES & LEN & BP).
  assert (S3 : adds den2 p2 p3 /\ zlen (sts p3) = zlen (sts p2) /\ okP p3).
  { destruct (isOptional lc) eqn:OC; [|injection BP as <-; split; [apply adds_refl|auto]].
    unfold bypassRule in BP. destruct (addRule_one _ _ _ _ _ _ O2 BP) as (_ & (Z & _) & O3 & _). split; [|auto].
    eapply addRule_adds; [exact O2|exact BP|lia|]. intros k [<-|[]] u U. cbn [rState label rNode rToken] in *.
    change (label _ ++ u) with u.
    assert (RL : req den2 lc ls tail).
    { clear - R2 EL ES LEN. revert st0 l ES EL R2 LEN. generalize (first :: rest) as states. induction l0 as [|c l0 IH]; intros states st0 l ES EL R LEN.
      - destruct st0; [|discriminate]. cbn [app] in *. subst. apply R.
      - destruct st0 as [|x st0]; [discriminate|]. cbn [app] in *. subst. cbn [reqs] in R. destruct R as (_ & R). eapply (IH _ st0); eauto. }
    apply RL. apply cat_skip; [apply W; rewrite EL; apply in_app_iff; right; left; reflexivity|exact OC|apply F2|exact U]. }
  destruct S3 as (AD3 & Z3 & O3).
  assert (AD13 : adds den2 p1 p3). { eapply adds_trans; [exact AD2|intros q _; reflexivity|lia|exact AD3]. }
  assert (NEWGOOD : forall x r, zlen (sts p) <= x -> has p3 x r -> good den2 p3 x r).
  { intros x r X Y. apply AD13 in Y. destruct Y as [Y|Y]; [|exact Y]. apply P1 in Y. apply has_live in Y. unfold live in Y. lia. }
  destruct (copyBack_adds den2 tail l (first :: rest) p3 p4 gp_copy0 O3 LE gp_nodup0 W F2 R2) as (AD4 & Z4 & O4).
  { cbn [tl]. intros x r X Y. apply NEWGOOD; [|exact Y]. specialize (gp_rest0 x X). lia. }
  assert (AD14 : adds den2 p1 p4). { eapply adds_trans; [exact AD13|intros q _; reflexivity|lia|exact AD4]. }
  assert (AD04 : adds den2 p p4). { intros q r X. apply AD14 in X. destruct X as [X|X]; auto. }
  destruct gp_first0 as [(EF & NX)|(FN & NX)]; rewrite NX in gp_extra0.
  - injection gp_extra0 as <-. exact AD04.
  - destruct (copyRules_spec _ _ _ _ O4 gp_extra0) as (L & L' & FO & O' & S). assert (Z5 : zlen (sts p') = zlen (sts p4)) by apply FO.
    eapply (adds_trans den2 den2 p p4 p'); [exact AD04|intros q _; reflexivity|lia|].
    intros q r X. destruct (Z.eq_dec q s) as [->|NEQ]; [|left; apply (has_onlyAt _ _ _ _ _ FO NEQ), X].
    apply S in X. destruct X as [X|[X _]]; [|auto]. right. apply AD04 in X. destruct X as [X|(T & C)].
    + apply has_live in X. unfold live in X. lia.
    + split; [lia|]. intros u U. rewrite <- (AGP s) by (unfold live in LV; lia). apply FS. rewrite (AG2 first) by lia. apply C, U.
Qed.

Theorem build_sound c : written c -> loopsApart c = true -> memberS c.
Proof.
  induction c as [t| |i|opt rep l IH|l IH] using chunk_nest; intros W LA.
  - intros s n p p' den H O LV NL F DF (RQ & _). inversion W; subst. exists den. split; [intros q _; reflexivity|]. split; [exact F|].
    cbn [buildStates] in H. eapply addRule_adds; [exact O|exact H|exact NL|]. intros k [<-|[]] u U. cbn [rState] in U.
    apply RQ. exists [STok t], u. split; [constructor|]. split; [exact U|]. unfold label. cbn [rNode rToken]. rewrite Z.eqb_refl.
    destruct (Z.eqb_spec t AnyToken); [unfold AnyToken in *; lia|]. destruct (Z.eqb_spec t EoiToken); [unfold EoiToken in *; lia|].
    cbn [app cut]. destruct (F n) as (_ & FC). rewrite (FC u U). reflexivity.
  - intros s n p p' den H O LV NL F DF (RQ & _). exists den. split; [intros q _; reflexivity|]. split; [exact F|].
    cbn [buildStates] in H. eapply addRule_adds; [exact O|exact H|unfold FinalState; unfold live in LV; lia|]. intros k [<-|[]] u U. cbn [rState] in U.
    apply RQ. rewrite (DF u U). destruct (F n) as ((v & V) & _). exists [SEoi], v. split; [constructor|]. split; [exact V|reflexivity].
  - intros s n p p' den H O LV NL F DF (RQ & _). inversion W; subst. exists den. split; [intros q _; reflexivity|]. split; [exact F|].
    cbn [buildStates] in H. eapply addRule_adds; [exact O|exact H|exact NL|]. intros k K u U. cbn [rState] in U.
    apply RQ. exists [SNode i k], u. split; [constructor; apply SUB; exact K|]. split; [exact U|]. unfold label. cbn [rNode rToken].
    destruct (Z.eqb_spec i SameNode); [unfold SameNode in *; lia|]. cbn [app cut]. destruct (F n) as (_ & FC). rewrite (FC u U). reflexivity.
  - inversion W as [| | | |? ? ? NE RO WL]; subst. apply group_sound; auto. intros c C. apply IH; [exact C|apply WL, C|].
    cbn [loopsApart] in LA. apply andb_true_iff in LA. destruct LA as (LA & _). rewrite forallb_forall in LA. apply LA, C.
  - inversion W as [| | |? NE WL|]; subst. cbn [loopsApart] in LA. apply andb_true_iff in LA. destruct LA as (LA & LB).
    rewrite forallb_forall in LA. apply negb_true_iff in LB.
    intros s n p p' den H O LV NL F DF (RQ & _). rewrite buildStates_var in H.
    assert (RQ' : forall c, In c l -> forall x, cat c (den n) x -> den s x).
    { intros c C x (w & v & D & V & ->). apply RQ. exists w, v. split; [eapply D_variant; eassumption|auto]. }
    assert (LB' : forall c, In c l -> beginsLoop c = false).
    { intros c C. destruct (beginsLoop c) eqn:B; [|reflexivity]. assert (X : existsb beginsLoop l = true) by (apply existsb_exists; eauto). congruence. }
    clear RQ LB W NE. revert p den H O LV NL F DF RQ'. induction l as [|c l IL]; intros p den H O LV NL F DF RQ'; cbn [buildVar] in H.
    + injection H as <-. exists den. split; [intros q _; reflexivity|]. split; [exact F|apply adds_refl].
    + ob H. rename x into pm. pose proof (WL c (or_introl eq_refl)) as Wc. pose proof (build_zlen _ _ _ _ _ _ Wc H0) as Z1.
      destruct (IH c (or_introl eq_refl) Wc (LA c (or_introl eq_refl)) s n p pm den H0 O LV NL F DF) as (den1 & A1 & F1 & AD1).
      { split; [apply RQ'; left; reflexivity|]. rewrite (LB' c (or_introl eq_refl)). discriminate. }
      destruct (IL (fun c' C => IH c' (or_intror C)) (fun c' C => LA c' (or_intror C)) (fun c' C => WL c' (or_intror C)) (fun c' C => LB' c' (or_intror C)) pm den1 H) as (den2 & A2 & F2 & AD2).
      * eapply build_ok; eassumption.
      * unfold live in *. lia.
      * lia.
      * exact F1.
      * intros u U. apply DF. rewrite (A1 FinalState); [exact U|]. unfold FinalState. unfold live in LV. lia.
      * intros c' C x X. rewrite <- (A1 s) by (unfold live in LV; lia). rewrite <- (A1 n NL) in X. apply (RQ' c' (or_intror C)), X.
      * exists den2. split; [intros q Q; rewrite (A1 q Q); apply A2; lia|]. split; [exact F2|].
        eapply adds_trans; [exact AD1|exact A2| |exact AD2].
        assert (WL' : forall c, In c l -> written c) by (intros; apply WL; right; assumption). clear - H WL'. revert pm H.
        induction l as [|c1 l IL]; intros pm H; cbn [buildVar] in H; [injection H as <-; lia|]. ob H.
        pose proof (build_zlen _ _ _ _ _ _ (WL' c1 (or_introl eq_refl)) H0) as Z1. specialize (IL (fun c0 C => WL' c0 (or_intror C)) x H). lia.
Qed.

(** ** Nodes *)
Lemma accepts_den (den : assignment) (hs : Z -> rule -> Prop) : den FinalState [] -> (forall q r, hs q r -> consistent den q r) ->
  forall q w, accepts hs q w -> den q w.
Proof. intros F C q w A. induction A as [|q r w X A IH]; [exact F|]. apply (C _ _ X), IH. Qed.

Lemma nodes_sound defs : (forall d, In d defs -> written d /\ loopsApart d = true) -> forall p fs p' den,
  buildNodes firsts defs p = Some (fs, p') -> okP p -> (forall q, fine (den q)) -> (forall u, den FinalState u -> u = []) ->
  exists den', agree den den' p /\ (forall q, fine (den' q)) /\ adds den' p p' /\ zlen (sts p) <= zlen (sts p') /\
    forall i d f, nth_error defs i = Some d -> nth_error fs i = Some f -> forall x, den' f x -> exists w, derives starts d w /\ x = cut w.
Proof.
  induction defs as [|d defs IH]; intros W p fs p' den H O F DF; cbn [buildNodes] in H.
  - injection H as <- <-. exists den. split; [intros q _; reflexivity|]. split; [exact F|]. split; [apply adds_refl|]. split; [lia|]. intros [|i]; discriminate.
  - destruct (addState p) as (f, p1) eqn:A. ob H. rename x into p2. ob H. destruct x as (fs', p3). injection H as <- <-.
    destruct (W d (or_introl eq_refl)) as (Wd & Ld). pose proof (addState_ok _ _ _ O A) as O1. apply addState_spec in A. destruct A as (-> & A2 & A3 & A4 & _).
    pose proof (zlen_nonneg (sts p)) as ZP.
    set (den1 := fun q => if q =? zlen (sts p) then cat d (fun x => x = []) else den q).
    assert (FE : fine (fun x => x = [])). { split; [exists []; reflexivity|]. intros x ->. reflexivity. }
    assert (F1 : forall q, fine (den1 q)).
    { intros q. unfold den1. destruct (q =? zlen (sts p)); [|apply F]. destruct (derives_some d Wd) as (w & D). split; [exists (cut (w ++ [])), w, []; auto|].
      intros x (w' & v & _ & _ & ->). apply cut_cut. }
    assert (A1 : agree den den1 p). { intros q Q. unfold den1. destruct (Z.eqb_spec q (zlen (sts p))); [lia|reflexivity]. }
    assert (LV : live p1 (zlen (sts p))) by (unfold live; lia).
    assert (NX : FinalState <> zlen (sts p)) by (unfold FinalState; lia).
    assert (DF1 : forall u, den1 FinalState u -> u = []). { intros u. unfold den1. destruct (Z.eqb_spec FinalState (zlen (sts p))); [contradiction|apply DF]. }
    assert (DE : forall x, den1 FinalState x <-> x = []).
    { intros x. split; [apply DF1|]. intros ->. destruct (F1 FinalState) as ((y & Y) & _). pose proof (DF1 y Y) as ->. exact Y. }
    destruct (build_sound d Wd Ld (zlen (sts p)) FinalState p1 p2 den1 H0 O1 LV ltac:(unfold FinalState; lia) F1 DF1) as (den2 & AG2 & F2 & AD2).
    { unfold req. assert (ES : den1 (zlen (sts p)) = cat d (fun x => x = [])) by (unfold den1; rewrite Z.eqb_refl; reflexivity). rewrite ES.
      split; [|intros _]; intros x (w & v & D & V & ->); exists w, v; (split; [exact D|]; split; [apply DE, V|reflexivity]). }
    pose proof (build_zlen _ _ _ _ _ _ Wd H0) as Z2.
    destruct (IH (fun d' D => W d' (or_intror D)) p2 fs' p3 den2 H1) as (den3 & AG3 & F3 & AD3 & Z3 & N3).
    + eapply build_ok; eassumption.
    + exact F2.
    + intros u U. apply DF1. rewrite (AG2 FinalState) by (unfold FinalState; lia). exact U.
    + exists den3. split; [intros q Q; rewrite (A1 q Q), (AG2 q), (AG3 q) by lia; reflexivity|]. split; [exact F3|]. split; [|split; [lia|]].
      * assert (ADa : adds den2 p p2).
        { intros q r X. apply AD2 in X. destruct X as [(e & G & Y)|X]; [|auto]. destruct (Z.eq_dec q (zlen (sts p))) as [->|NEQ].
          - rewrite A4 in G. injection G as <-. destruct Y.
          - rewrite A3 in G by exact NEQ. left. exists e. auto. }
        eapply adds_trans; [exact ADa|exact AG3|exact Z3|exact AD3].
      * intros i d' f D FF x X. destruct i as [|i]; [|eapply N3; eassumption]. injection D as <-. injection FF as <-.
        rewrite <- (AG3 (zlen (sts p))) in X by lia. rewrite <- (AG2 (zlen (sts p))) in X by lia. unfold den1 in X. rewrite Z.eqb_refl in X.
        destruct X as (w & v & D & -> & ->). exists w. rewrite app_nil_r. auto.
Qed.

Lemma nodes_only defs fs p' : (forall d, In d defs -> written d /\ loopsApart d = true) ->
  buildNodes firsts defs (mkPres [] 0) = Some (fs, p') ->
  forall i d f w, nth_error defs i = Some d -> nth_error fs i = Some f -> accepts (has p') f w -> exists w', derives starts d w' /\ w = cut w'.
Proof.
  intros W H i d f w D FF A.
  assert (O : okP (mkPres [] 0)). { intros q e G. apply zget_Some_inv in G. cbn in G. lia. }
  destruct (nodes_sound defs W _ _ _ (fun _ x => x = []) H O) as (den & AG & F & AD & _ & N).
  - intros _. split; [exists []; reflexivity|]. intros x ->. reflexivity.
  - auto.
  - apply (N i d f D FF w). apply (accepts_den den (has p')); [rewrite <- (AG FinalState) by (unfold FinalState; cbn; lia); reflexivity| |exact A].
    intros q r X. apply AD in X. destruct X as [(e & G & _)|X]; [|apply X]. apply zget_Some_inv in G. cbn in G. lia.
Qed.
End Sound.

(** Deriving needs only what is mentioned. *)
Lemma derives_mentions (st st' : Z -> Z -> Prop) :
  (forall c w, derives st c w -> (forall i t, mentions c i -> st i t -> st' i t) -> derives st' c w) /\
  (forall l w, derivesSeq st l w -> (forall c i t, In c l -> mentions c i -> st i t -> st' i t) -> derivesSeq st' l w).
Proof.
  apply derives_both.
  - intros; constructor.
  - intros; constructor.
  - intros i t S X. constructor. apply X; [constructor|exact S].
  - intros l c w C D IH X. eapply D_variant; [exact C|]. apply IH. intros i t M. apply X. econstructor; eassumption.
  - intros opt rep l w D IH X. apply D_once. apply IH. intros c i t C M. apply X. econstructor; eassumption.
  - intros; apply D_never.
  - intros opt l w v D IH D' IH' X. apply D_again; [|apply IH'; exact X]. apply IH. intros c i t C M. apply X. econstructor; eassumption.
  - intros; constructor.
  - intros c l w v D IH D' IH' X. constructor; [apply IH; intros i t M; apply (X c); [left; reflexivity|exact M]|apply IH'; intros c' i t C; apply X; right; exact C].
Qed.
Theorem nodes_accept_only firsts defs fs p' : (forall d, In d defs -> written d /\ loopsApart d = true) ->
  (forall d i, In d defs -> mentions d i -> firstsOf firsts i <> []) ->
  buildNodes firsts defs (mkPres [] 0) = Some (fs, p') ->
  forall i d f w, nth_error defs i = Some d -> nth_error fs i = Some f -> accepts (has p') f w ->
  exists w', derives (starts firsts) d w' /\ w = cut w'.
Proof.
  intros W M H i d f w D FF A.
  set (st := fun i t => starts firsts i t \/ firstsOf firsts i = [] /\ t = 0).
  destruct (nodes_only firsts st (fun i t X => or_introl X)) with (3 := H) (4 := D) (5 := FF) (6 := A) as (w' & DV & E).
  - intros j. destruct (firstsOf firsts j) as [|t l] eqn:F; [exists 0; right; auto|]. exists t. left. unfold starts. rewrite F. left. reflexivity.
  - exact W.
  - exists w'. split; [|exact E]. apply (proj1 (derives_mentions st (starts firsts)) _ _ DV).
    intros j t MJ [X|[X _]]; [exact X|]. contradiction (M d j (nth_error_In _ _ D) MJ X).
Qed.
