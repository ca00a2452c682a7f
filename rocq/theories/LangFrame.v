(** How building the states of a definition changes the tables. *)
From Coq Require Import ZArith List Bool Lia.
From Verif Require Import Base BaseProofs Grammar LangBuild LangSpec LangProofs.
Import ListNotations.
Open Scope Z_scope.

Notation sts := prStates.

(** ** Induction over definitions *)
Section ChunkInd.
Variable P : chunk -> Prop.
Hypothesis Htok : forall t, P (CTok t).
Hypothesis Heoi : P CEoi.
Hypothesis Hnode : forall i, P (CNode i).
Hypothesis Hgroup : forall opt rep l, (forall c, In c l -> P c) -> P (CGroup opt rep l).
Hypothesis Hvar : forall l, (forall c, In c l -> P c) -> P (CVar l).
Fixpoint chunk_nest (c : chunk) : P c :=
  let lst := fix lst (l : list chunk) : forall c, In c l -> P c :=
    match l with
    | [] => fun c H => match H with end
    | x :: r => fun c H => match H with or_introl E => eq_ind x P (chunk_nest x) c E | or_intror H' => lst r c H' end
    end in
  match c with
  | CTok t => Htok t
  | CEoi => Heoi
  | CNode i => Hnode i
  | CGroup opt rep l => Hgroup opt rep l (lst l)
  | CVar l => Hvar l (lst l)
  end.
End ChunkInd.

(** ** Equations *)
Section Equations.
Variable firsts : list (list Z).

Fixpoint buildVar (l : list chunk) (s n : Z) (p : pres) : option pres :=
  match l with
  | [] => Some p
  | ch :: l' => do p <- buildStates firsts ch s n p; buildVar l' s n p
  end.
Fixpoint buildSeq (l : list chunk) (states : list Z) (tail : Z) (p : pres) : option pres :=
  match l, states with
  | [], _ => Some p
  | ch :: l', s :: states' => do p <- buildStates firsts ch s (hd tail states') p; buildSeq l' states' tail p
  | _, [] => None
  end.
Lemma buildStates_var l s n p : buildStates firsts (CVar l) s n p = buildVar l s n p.
Proof.
  cbn [buildStates]. revert p. induction l as [|c l IH]; intros p; [reflexivity|]. cbn [buildVar].
  destruct (buildStates firsts c s n p); [apply IH|reflexivity].
Qed.
Lemma buildStates_group opt rep l s n p : buildStates firsts (CGroup opt rep l) s n p =
  let tailIndex := if rep then s else n in
  let needExtraRule := rep && (1 <? zlen l) in
  let '(first, p) := if needExtraRule then addState p else (s, p) in
  let '(rest, p) := addStates (length l - 1) p in
  do p <- buildSeq l (first :: rest) tailIndex p;
  do lastChunk <- zget l (zlen l - 1);
  do lastState <- zget (first :: rest) (zlen l - 1);
  do p <- (if isOptional lastChunk then bypassRule p lastState tailIndex else Some p);
  do p <- copyBack l (first :: rest) p;
  if needExtraRule then copyRules p s first else Some p.
Proof.
  cbn [buildStates].
  set (ne := rep && (1 <? zlen l)). set (tl := if rep then s else n).
  destruct (if ne then addState p else (s, p)) as (first, p1). destruct (addStates _ p1) as (rest, p2).
  match goal with |- obind (?f l (first :: rest) p2) _ = _ => assert (X : forall l states p, f l states p = buildSeq l states tl p) end.
  { clear. induction l as [|c l IH]; intros states p; [reflexivity|]. destruct states as [|x states]; [reflexivity|].
    cbn [buildSeq]. destruct (buildStates firsts c x (hd tl states) p); [apply IH|reflexivity]. }
  rewrite X. reflexivity.
Qed.
End Equations.

(** ** New states *)
Lemma addStates_spec n : forall p is p', addStates n p = (is, p') ->
  length is = n /\ zlen (sts p') = zlen (sts p) + Z.of_nat n /\
  (forall i, In i is -> zlen (sts p) <= i < zlen (sts p')) /\ NoDup is /\
  (forall q, q < zlen (sts p) -> zget (sts p') q = zget (sts p) q) /\
  (forall q, zlen (sts p) <= q < zlen (sts p') -> zget (sts p') q = Some (mkEntry 0 [] [])) /\ prCells p' = prCells p.
Proof.
  induction n as [|n IH]; intros p is p' H; cbn [addStates] in H.
  - injection H as <- <-. split; [reflexivity|]. split; [lia|]. split; [easy|]. split; [constructor|]. split; [easy|]. split; [lia|reflexivity].
  - destruct (addState p) as (i, p1) eqn:A. destruct (addStates n p1) as (is1, p2) eqn:B. injection H as <- <-.
    apply addState_spec in A. destruct A as (-> & Z1 & F1 & G1 & C1). destruct (IH _ _ _ B) as (L & Z2 & I2 & N2 & F2 & G2 & C2).
    pose proof (zlen_nonneg (sts p)).
    split; [cbn; lia|]. split; [lia|]. split; [intros j [<-|J]; [lia|]; specialize (I2 j J); lia|].
    split; [constructor; [|exact N2]; intros C; specialize (I2 _ C); lia|].
    split; [intros q Q; rewrite F2 by lia; apply F1; lia|]. split; [|congruence].
    intros q Q. destruct (Z.eq_dec q (zlen (sts p))) as [->|NE]; [rewrite F2 by lia; exact G1|]. apply G2. lia.
Qed.
Lemma addStates_ok n p is p' : okP p -> addStates n p = (is, p') -> okP p'.
Proof.
  revert p is p'. induction n as [|n IH]; intros p is p' O H; cbn [addStates] in H.
  - injection H as _ <-. exact O.
  - destruct (addState p) as (i, p1) eqn:A. destruct (addStates n p1) as (is1, p2) eqn:B. injection H as _ <-.
    eapply IH, B. eapply addState_ok, A. exact O.
Qed.

(** The parts of building a group *)
Record groupParts (firsts : list (list Z)) (rep : bool) (l : list chunk) (s n : Z) (p p' : pres)
    (first : Z) (rest : list Z) (p1 p2 p3 p4 : pres) (lastState : Z) : Prop := mkParts {
  gp_len : length rest = (length l - 1)%nat;
  gp_first : first = s /\ rep && (1 <? zlen l) = false \/ zlen (sts p) <= first < zlen (sts p1) /\ rep && (1 <? zlen l) = true;
  gp_rest : forall i, In i rest -> zlen (sts p) <= i < zlen (sts p1);
  gp_nodup : NoDup (first :: rest);
  gp_zlen : zlen (sts p) <= zlen (sts p1);
  gp_old : forall q, q < zlen (sts p) -> zget (sts p1) q = zget (sts p) q;
  gp_new : forall q, zlen (sts p) <= q < zlen (sts p1) -> zget (sts p1) q = Some (mkEntry 0 [] []);
  gp_seq : buildSeq firsts l (first :: rest) (if rep then s else n) p1 = Some p2;
  gp_last : exists lastChunk l0 states0, l = l0 ++ [lastChunk] /\ first :: rest = states0 ++ [lastState] /\ length l0 = length states0 /\
    (if isOptional lastChunk then bypassRule p2 lastState (if rep then s else n) else Some p2) = Some p3;
  gp_copy : copyBack l (first :: rest) p3 = Some p4;
  gp_extra : (if rep && (1 <? zlen l) then copyRules p4 s first else Some p4) = Some p';
  gp_cells : prCells p1 = prCells p
}.
Lemma zget_last {A} (l : list A) x : zget l (zlen l - 1) = Some x -> exists l0, l = l0 ++ [x].
Proof.
  intros G. pose proof (zget_Some_inv _ _ _ G) as Q. unfold zget in G. destruct (Z.ltb_spec (zlen l - 1) 0); [lia|].
  destruct (exists_last (l := l)) as (l0 & y & X); [intros ->; cbn in Q; lia|]. subst l.
  rewrite nth_error_app2 in G by (unfold zlen; rewrite app_length; cbn; lia).
  replace (Z.to_nat _ - _)%nat with 0%nat in G by (unfold zlen; rewrite app_length; cbn; lia). cbn in G. injection G as ->. eauto.
Qed.
Lemma addStates_all n : forall p is p', addStates n p = (is, p') -> forall q, zlen (sts p) <= q < zlen (sts p') -> In q is.
Proof.
  induction n as [|n IH]; intros p is p' H q Q; cbn [addStates] in H.
  - injection H as <- <-. lia.
  - destruct (addState p) as (i, p1) eqn:A. destruct (addStates n p1) as (is1, p2) eqn:B. injection H as <- <-.
    apply addState_spec in A. destruct A as (-> & Z1 & _). destruct (Z.eq_dec q (zlen (sts p))) as [->|N]; [left; reflexivity|]. right. apply (IH _ _ _ B). lia.
Qed.
Lemma group_parts_all firsts opt rep l s n p p' : live p s -> buildStates firsts (CGroup opt rep l) s n p = Some p' ->
  exists first rest p1 p2 p3 p4 lastState, groupParts firsts rep l s n p p' first rest p1 p2 p3 p4 lastState /\
    forall q, zlen (sts p) <= q < zlen (sts p1) -> In q (first :: rest).
Proof.
  intros L H. rewrite buildStates_group in H. cbv zeta in H.
  destruct (if rep && (1 <? zlen l) then addState p else (s, p)) as (first, p0) eqn:A.
  destruct (addStates (length l - 1) p0) as (rest, p1) eqn:B.
  ob H. rename x into p2. rename H0 into S1. ob H. rename x into lc. rename H0 into S2. ob H. rename x into ls. rename H0 into S3.
  ob H. rename x into p3. rename H0 into S4. ob H. rename x into p4. rename H0 into S5.
  exists first, rest, p1, p2, p3, p4, ls.
  assert (ALL : forall q, zlen (sts p) <= q < zlen (sts p1) -> In q (first :: rest)).
  { intros q Q. destruct (Z.lt_ge_cases q (zlen (sts p0))) as [LT|GE]; [|right; apply (addStates_all _ _ _ _ B); lia].
    destruct (rep && (1 <? zlen l)); [apply addState_spec in A; left; lia|injection A as <- <-; lia]. }
  apply addStates_spec in B. destruct B as (B1 & B2 & B3 & B4 & B5 & B6 & B7).
  assert (A0 : prCells p0 = prCells p). { destruct (rep && (1 <? zlen l)); [apply addState_spec in A; apply A|injection A as _ <-; reflexivity]. }
  assert (A' : (first = s /\ rep && (1 <? zlen l) = false \/ first = zlen (sts p) /\ rep && (1 <? zlen l) = true) /\ zlen (sts p) <= zlen (sts p0) /\
     (first < zlen (sts p0)) /\ (forall q, q < zlen (sts p) -> zget (sts p0) q = zget (sts p) q) /\
     (forall q, zlen (sts p) <= q < zlen (sts p0) -> zget (sts p0) q = Some (mkEntry 0 [] []))).
  { destruct (rep && (1 <? zlen l)).
    - apply addState_spec in A. destruct A as (-> & A2 & A3 & A4 & _). split; [auto|]. split; [lia|]. split; [lia|].
      split; [intros q Q; apply A3; lia|]. intros q Q. replace q with (zlen (sts p)) by lia. exact A4.
    - injection A as <- <-. unfold live in L. split; [auto|]. split; [lia|]. split; [lia|]. split; [easy|]. lia. }
  clear A. destruct A' as (A1 & A2 & A3 & A4 & A5).
  assert (LL : l <> []) by (intros ->; unfold zget in S2; cbn in S2; discriminate).
  split; [|exact ALL]. split.
  - exact B1.
  - destruct A1 as [(-> & ->)|(-> & ->)]; [auto|right; split; [lia|reflexivity]].
  - intros i J. specialize (B3 i J). lia.
  - constructor; [|exact B4]. intros J. specialize (B3 _ J). lia.
  - lia.
  - intros q Q. rewrite B5 by lia. apply A4, Q.
  - intros q Q. destruct (Z.lt_ge_cases q (zlen (sts p0))); [rewrite B5 by lia; apply A5; lia|apply B6; lia].
  - exact S1.
  - destruct (zget_last _ _ S2) as (l0 & EL).
    assert (ZZ : zlen (first :: rest) = zlen l). { unfold zlen. cbn [length]. rewrite B1. destruct l; [contradiction|cbn; lia]. }
    rewrite <- ZZ in S3. destruct (zget_last _ _ S3) as (st0 & ES). exists lc, l0, st0. split; [exact EL|]. split; [exact ES|]. split; [|exact S4].
    rewrite EL, ES in ZZ. unfold zlen in ZZ. rewrite !app_length in ZZ. cbn in ZZ. lia.
  - exact S5.
  - exact H.
  - congruence.
Qed.

Lemma group_parts firsts opt rep l s n p p' : live p s -> buildStates firsts (CGroup opt rep l) s n p = Some p' ->
  exists first rest p1 p2 p3 p4 lastState, groupParts firsts rep l s n p p' first rest p1 p2 p3 p4 lastState.
Proof. intros L H. destruct (group_parts_all _ _ _ _ _ _ _ _ L H) as (f & r & p1 & p2 & p3 & p4 & ls & G & _). exists f, r, p1, p2, p3, p4, ls. exact G. Qed.

(** ** Relations that hold for every building *)
Section BuildRel.
Variable firsts : list (list Z).
Definition okRule (st nt k : Z) : Prop :=
  (nt = SameNode /\ 0 <= k) \/ (st = FinalState /\ nt = SameNode /\ k = EoiToken) \/ (nt = SameNode /\ k = AnyToken) \/
  (0 <= nt /\ In k (firstsOf firsts nt)).
Variable Q : pres -> pres -> Prop.
Hypothesis Qrefl : forall p, Q p p.
Hypothesis Qtrans : forall p p' p'', Q p p' -> Q p' p'' -> Q p p''.
Hypothesis Qstate : forall p i p', addState p = (i, p') -> Q p p'.
Hypothesis Qrule : forall p i st nt k p', okRule st nt k -> addRule1 p i st nt k = Some p' -> Q p p'.
Hypothesis Qcopy : forall p i j p', copyRules p i j = Some p' -> Q p p'.

Lemma rel_addRule i st nt ks : forall p p', (forall k, In k ks -> okRule st nt k) -> addRule p i st nt ks = Some p' -> Q p p'.
Proof.
  induction ks as [|k ks IH]; intros p p' O H; cbn [addRule] in H.
  - injection H as <-. apply Qrefl.
  - ob H. eapply Qtrans; [eapply Qrule, H0; apply O; left; reflexivity|]. eapply IH, H. intros k' K. apply O. right. exact K.
Qed.
Lemma rel_addStates n : forall p is p', addStates n p = (is, p') -> Q p p'.
Proof.
  induction n as [|n IH]; intros p is p' H; cbn [addStates] in H.
  - injection H as _ <-. apply Qrefl.
  - destruct (addState p) as (i, p1) eqn:A. destruct (addStates n p1) as (is1, p2) eqn:B. injection H as _ <-.
    eapply Qtrans; [eapply Qstate, A|eapply IH, B].
Qed.
Lemma rel_copyBack l : forall states p p', copyBack l states p = Some p' -> Q p p'.
Proof.
  induction l as [|c l IH]; intros states p p' H.
  - cbn in H. injection H as <-. apply Qrefl.
  - destruct l as [|c' l]; [cbn in H; injection H as <-; apply Qrefl|].
    destruct states as [|s [|s' states]]; [cbn in H; injection H as <-; apply Qrefl|cbn in H; injection H as <-; apply Qrefl|].
    change (copyBack (c :: c' :: l) (s :: s' :: states) p) with
      (do p <- copyBack (c' :: l) (s' :: states) p; if isOptional c then copyRules p s s' else Some p) in H.
    ob H. eapply Qtrans; [eapply IH, H0|]. destruct (isOptional c); [eapply Qcopy, H|injection H as <-; apply Qrefl].
Qed.
Lemma build_rel c : written c -> forall s n p p', buildStates firsts c s n p = Some p' -> Q p p'.
Proof.
  induction c as [t| |i|opt rep l IH|l IH] using chunk_nest; intros W s n p p' H.
  - inversion W; subst. cbn [buildStates] in H. eapply rel_addRule, H. intros k [<-|[]]. left. auto.
  - cbn [buildStates] in H. eapply rel_addRule, H. intros k [<-|[]]. right. left. auto.
  - inversion W; subst. cbn [buildStates] in H. eapply rel_addRule, H. intros k K. right. right. right. auto.
  - inversion W as [| | | |? ? ? NE RO WL]; subst. rewrite buildStates_group in H. cbv zeta in H.
    destruct (if rep && (1 <? zlen l) then addState p else (s, p)) as (first, p0) eqn:A.
    destruct (addStates (length l - 1) p0) as (rest, p1) eqn:B.
    ob H. rename x into p2. rename H0 into S1. ob H. rename x into lc. rename H0 into S2. ob H. rename x into ls. rename H0 into S3.
    ob H. rename x into p3. rename H0 into S4. ob H. rename x into p4. rename H0 into S5.
    assert (Q01 : Q p p0). { destruct (rep && (1 <? zlen l)); [eapply Qstate, A|injection A as _ <-; apply Qrefl]. }
    assert (Q12 : Q p1 p2).
    { clear - IH WL S1 Qrefl Qtrans. revert IH WL S1. generalize (first :: rest) as states. revert p1.
      induction l as [|c l IL]; intros p1 states IH WL S1.
      - cbn in S1. injection S1 as <-. apply Qrefl.
      - destruct states as [|x states]; [discriminate S1|]. cbn [buildSeq] in S1. ob S1.
        eapply Qtrans; [eapply (IH c (or_introl eq_refl) (WL c (or_introl eq_refl))), S0|].
        eapply IL, S1; [intros c' C; apply IH; right; exact C|intros c' C; apply WL; right; exact C]. }
    assert (Q23 : Q p2 p3).
    { destruct (isOptional lc); [|injection S4 as <-; apply Qrefl]. unfold bypassRule in S4. eapply rel_addRule, S4.
      intros k [<-|[]]. right. right. left. auto. }
    assert (Q45 : Q p4 p'). { destruct (rep && (1 <? zlen l)); [eapply Qcopy, H|injection H as <-; apply Qrefl]. }
    eapply Qtrans; [exact Q01|]. eapply Qtrans; [eapply rel_addStates, B|]. eapply Qtrans; [exact Q12|].
    eapply Qtrans; [exact Q23|]. eapply Qtrans; [eapply rel_copyBack, S5|exact Q45].
  - inversion W as [| | |? NE WL|]; subst. rewrite buildStates_var in H. clear W NE. revert p p' H.
    induction l as [|c l IL]; intros p p' H; cbn [buildVar] in H.
    + injection H as <-. apply Qrefl.
    + ob H. eapply Qtrans; [eapply (IH c (or_introl eq_refl) (WL c (or_introl eq_refl))), H0|].
      eapply IL, H; [intros c' C; apply IH; right; exact C|intros c' C; apply WL; right; exact C].
Qed.
End BuildRel.

(** *** Well formedness *)
Lemma build_ok firsts c s n p p' : written c -> buildStates firsts c s n p = Some p' -> okP p -> okP p'.
Proof.
  intros W H. apply (build_rel firsts (fun p p' => okP p -> okP p')) with (c := c) (s := s) (n := n); auto.
  - intros p0 i p1 A O. eapply addState_ok, A. exact O.
  - intros p0 i st nt k p1 _ A O. apply (addRule1_spec _ _ _ _ _ _ O A).
  - intros p0 i j p1 A O. apply (copyRules_spec _ _ _ _ O A).
Qed.
Lemma build_zlen firsts c s n p p' : written c -> buildStates firsts c s n p = Some p' -> zlen (sts p) <= zlen (sts p').
Proof.
  intros W H. apply (build_rel firsts (fun p p' => zlen (sts p) <= zlen (sts p'))) with (c := c) (s := s) (n := n); auto.
  - intros; lia.
  - intros; lia.
  - intros p0 i p1 A. apply addState_spec in A. lia.
  - intros p0 i st nt k p1 _ A. unfold addRule1 in A. ob A. destruct (0 <=? k).
    + apply setState_inv in A. destruct A as (_ & (A & _) & _). lia.
    + ob A. injection A as <-. apply setState_inv in A1. destruct A1 as (_ & (A & _) & _). cbn [sts prStates]. lia.
  - intros p0 i j p1 A. unfold copyRules in A. ob A. ob A. apply setState_inv in A. destruct A as (_ & (A & _) & _). lia.
Qed.

(** *** Rules for tokens are not lost.  End of input always ends the node. *)
Definition eoiRule : rule := mkRule EoiToken FinalState SameNode.
Definition eoiOk (p : pres) : Prop := forall i r, has p i r -> rToken r = EoiToken -> r = eoiRule.
(** no node begins with the end of input *)
Definition tokensFirst (firsts : list (list Z)) : Prop := forall i t, In t (firstsOf firsts i) -> 0 <= t.
Definition more (p p' : pres) : Prop := forall i r, has p i r -> rToken r <> AnyToken -> has p' i r.

Lemma has_onlyAt p p' i q r : onlyAt p p' i -> q <> i -> (has p' q r <-> has p q r).
Proof. intros (_ & F) NE. unfold has, hasRule. rewrite F by exact NE. reflexivity. Qed.
Definition negKeys (p : pres) : Prop := forall i r, has p i r -> rToken r < 0 -> rToken r = AnyToken \/ rToken r = EoiToken.

Record tidy (p : pres) : Prop := mkTidy { td_ok : okP p; td_eoi : eoiOk p; td_neg : negKeys p }.

Lemma addRule1_tidy firsts p i st nt k p' : tokensFirst firsts -> okRule firsts st nt k -> addRule1 p i st nt k = Some p' ->
  tidy p -> tidy p' /\ more p p'.
Proof.
  intros TF OR H [O EO NK]. destruct (addRule1_spec _ _ _ _ _ _ O H) as (L & F & O' & S).
  assert (KK : k < 0 -> (k = AnyToken) \/ (k = EoiToken /\ st = FinalState /\ nt = SameNode)).
  { intros K. destruct OR as [(_ & A)|[(A & B & C)|[(_ & A)|(A & B)]]]; [lia|auto|auto|]. specialize (TF _ _ B). lia. }
  split; [split; [exact O'| |]|].
  - intros q r X T. destruct (Z.eq_dec q i) as [->|NE].
    + apply S in X. destruct X as [->|[X _]]; [|eapply EO; eassumption]. cbn [rToken] in T. subst k.
      destruct (KK ltac:(reflexivity)) as [A|(_ & -> & ->)]; [discriminate A|reflexivity].
    + apply (has_onlyAt _ _ _ _ _ F NE) in X. eapply EO; eassumption.
  - intros q r X T. destruct (Z.eq_dec q i) as [->|NE].
    + apply S in X. destruct X as [->|[X _]]; [|eapply NK; eassumption]. cbn [rToken] in *.
      destruct (KK T) as [A|(A & _)]; auto.
    + apply (has_onlyAt _ _ _ _ _ F NE) in X. eapply NK; eassumption.
  - intros q r X NA. destruct (Z.eq_dec q i) as [->|NE].
    + apply S. destruct (Z.lt_ge_cases k 0) as [K|K].
      * destruct (Z.eq_dec (rToken r) k) as [T|T]; [|right; split; [exact X|auto]].
        destruct (KK K) as [A|(A & -> & ->)]; [congruence|]. left. rewrite A in T |- *. rewrite (EO _ _ X T). reflexivity.
      * right. split; [exact X|lia].
    + apply (has_onlyAt _ _ _ _ _ F NE). exact X.
Qed.
Lemma copyRules_tidy p i j p' : copyRules p i j = Some p' -> tidy p -> tidy p' /\ more p p'.
Proof.
  intros H [O EO NK]. destruct (copyRules_spec _ _ _ _ O H) as (L & L' & F & O' & S).
  split; [split; [exact O'| |]|].
  - intros q r X T. destruct (Z.eq_dec q i) as [->|NE].
    + apply S in X. destruct X as [X|[X _]]; eapply EO; eassumption.
    + apply (has_onlyAt _ _ _ _ _ F NE) in X. eapply EO; eassumption.
  - intros q r X T. destruct (Z.eq_dec q i) as [->|NE].
    + apply S in X. destruct X as [X|[X _]]; eapply NK; eassumption.
    + apply (has_onlyAt _ _ _ _ _ F NE) in X. eapply NK; eassumption.
  - intros q r X NA. destruct (Z.eq_dec q i) as [->|NE].
    + apply S. destruct (Z.lt_ge_cases (rToken r) 0) as [K|K]; [|right; split; [exact X|lia]].
      destruct (NK _ _ X K) as [T|T]; [contradiction|].
      assert (EX : has p j r \/ (rToken r < 0 -> forall r', has p j r' -> rToken r' <> rToken r)).
      { rewrite (EO _ _ X T) in *.
        destruct (live_entry _ _ L') as (e & G). destruct (mget EoiToken (eNeg e)) as [(id, r1)|] eqn:M.
        - left. apply mget_In in M; [|apply (O _ _ G)]. destruct (eo_negKey _ (O _ _ G) _ _ _ M) as (_ & T1).
          assert (X1 : has p j r1). { apply (has_at _ _ _ _ G). right. apply negRules_In. eauto. }
          rewrite <- (EO _ _ X1 T1). exact X1.
        - right. intros _ r' X' T'. apply mget_None in M. apply (has_at _ _ _ _ G) in X'. destruct X' as [X'|X'].
          + pose proof (pos_sign _ _ (O _ _ G) X') as PS. rewrite T' in PS. cbn in PS. unfold EoiToken in PS. lia.
          + apply negRules_In in X'. destruct X' as (k & i' & X'). destruct (eo_negKey _ (O _ _ G) _ _ _ X') as (_ & T2).
            apply M. rewrite T' in T2. cbn [rToken eoiRule] in T2. apply in_map_iff. exists (k, (i', r')). split; [cbn; congruence|exact X']. }
      destruct EX as [EX|EX]; auto.
    + apply (has_onlyAt _ _ _ _ _ F NE). exact X.
Qed.
Lemma addState_tidy p i p' : addState p = (i, p') -> tidy p -> tidy p' /\ more p p'.
Proof.
  intros H [O EO NK]. pose proof (addState_ok _ _ _ O H) as O'. apply addState_spec in H. destruct H as (-> & Z & F & G & _).
  assert (X : forall q r, has p' q r -> has p q r).
  { intros q r (e & A & B). destruct (Z.eq_dec q (zlen (sts p))) as [->|NE].
    - rewrite G in A. injection A as <-. destruct B.
    - rewrite F in A by exact NE. exists e. auto. }
  split; [split; [exact O'| |]|].
  - intros q r Y. apply EO with (i := q). auto.
  - intros q r Y. apply NK with (i := q). auto.
  - intros q r (e & A & B) _. exists e. split; [|exact B]. rewrite F; [exact A|]. apply zget_Some_inv in A. lia.
Qed.
Lemma build_tidy firsts c s n p p' : tokensFirst firsts -> written c -> buildStates firsts c s n p = Some p' -> tidy p -> tidy p' /\ more p p'.
Proof.
  intros TF W H. apply (build_rel firsts (fun p p' => tidy p -> tidy p' /\ more p p')) with (c := c) (s := s) (n := n); auto.
  - intros p0 T. split; [exact T|]. intros i r X _. exact X.
  - intros p0 p1 p2 A B T. destruct (A T) as (T1 & M1). destruct (B T1) as (T2 & M2). split; [exact T2|].
    intros i r X N. apply M2; [apply M1; assumption|exact N].
  - intros; eapply addState_tidy; eassumption.
  - intros; eapply addRule1_tidy; eassumption.
  - intros; eapply copyRules_tidy; eassumption.
Qed.

(** *** Other states do not change *)
Definition keeps (p p' : pres) (s : Z) : Prop := forall q, q < zlen (sts p) -> q <> s -> zget (sts p') q = zget (sts p) q.
Lemma addRule_keeps s st nt ks : forall p p', addRule p s st nt ks = Some p' -> keeps p p' s /\ zlen (sts p') = zlen (sts p).
Proof.
  induction ks as [|k ks IH]; intros p p' H; cbn [addRule] in H.
  - injection H as <-. split; [intros q _ _|]; reflexivity.
  - ob H. rename x into p1. destruct (IH _ _ H) as (A & B).
    assert (X : onlyAt p p1 s).
    { unfold addRule1 in H0. ob H0. destruct (0 <=? k).
      - apply setState_inv in H0. apply H0.
      - ob H0. injection H0 as <-. apply setState_inv in H2. destruct H2 as (_ & (E1 & E2) & _). split; [exact E1|exact E2]. }
    destruct X as (X1 & X2). split; [|congruence]. intros q Q N. rewrite A by (rewrite ?X1; auto). apply X2, N.
Qed.
Lemma copyRules_keeps p i j p' : copyRules p i j = Some p' -> onlyAt p p' i.
Proof. intros A. unfold copyRules in A. ob A. ob A. apply setState_inv in A. apply A. Qed.
Lemma copyBack_keeps l : forall states p p', copyBack l states p = Some p' ->
  zlen (sts p') = zlen (sts p) /\ forall q, ~ In q (removelast states) -> zget (sts p') q = zget (sts p) q.
Proof.
  induction l as [|c l IH]; intros states p p' H.
  - cbn in H. injection H as <-. auto.
  - destruct l as [|c' l]; [cbn in H; injection H as <-; auto|].
    destruct states as [|s [|s' states]]; [cbn in H; injection H as <-; auto|cbn in H; injection H as <-; auto|].
    change (copyBack (c :: c' :: l) (s :: s' :: states) p) with
      (do p <- copyBack (c' :: l) (s' :: states) p; if isOptional c then copyRules p s s' else Some p) in H.
    ob H. rename x into p1. destruct (IH _ _ _ H0) as (Z1 & F1).
    change (removelast (s :: s' :: states)) with (s :: removelast (s' :: states)).
    destruct (isOptional c).
    + apply copyRules_keeps in H. destruct H as (Z2 & F2). split; [congruence|]. intros q N. rewrite F2 by (intros ->; apply N; left; reflexivity).
      apply F1. intros C. apply N. right. exact C.
    + injection H as <-. split; [exact Z1|]. intros q N. apply F1. intros C. apply N. right. exact C.
Qed.

Lemma build_keeps firsts c : written c -> forall s n p p', buildStates firsts c s n p = Some p' -> live p s -> keeps p p' s.
Proof.
  induction c as [t| |i|opt rep l IH|l IH] using chunk_nest; intros W s n p p' H LV.
  - eapply addRule_keeps, H.
  - eapply addRule_keeps, H.
  - eapply addRule_keeps, H.
  - inversion W as [| | | |? ? ? NE RO WL]; subst.
    destruct (group_parts _ _ _ _ _ _ _ _ LV H) as (first & rest & p1 & p2 & p3 & p4 & ls & G). destruct G as [gp_len0 gp_first0 gp_rest0 gp_nodup0 gp_zlen0 gp_old0 gp_new0 gp_seq0 gp_last0 gp_copy0 gp_extra0 gp_cells0].
    assert (SL : forall x, In x (first :: rest) -> x = s \/ zlen (sts p) <= x < zlen (sts p1)).
    { intros x [<-|X]; [|right; apply gp_rest0, X]. destruct gp_first0 as [(-> & _)|(X & _)]; auto. }
    assert (KS : zlen (sts p1) <= zlen (sts p2) /\ forall q, q < zlen (sts p1) -> ~ In q (first :: rest) -> zget (sts p2) q = zget (sts p1) q).
    { clear - IH WL gp_seq0 SL LV gp_zlen0. unfold live in LV.
      assert (SV : forall x, In x (first :: rest) -> live p1 x). { intros x X. specialize (SL x X). unfold live. destruct SL as [->|SL]; lia. }
      clear SL LV gp_zlen0. revert SV gp_seq0. generalize (first :: rest) as states. generalize (if rep then s else n) as tl.
      intros tl. revert p1. induction l as [|c l IL]; intros p1 states SV B.
      - cbn in B. injection B as <-. split; [lia|auto].
      - destruct states as [|x states]; [discriminate B|]. cbn [buildSeq] in B. ob B. rename x0 into pm.
        pose proof (build_zlen _ _ _ _ _ _ (WL c (or_introl eq_refl)) B0) as Z1.
        pose proof (IH c (or_introl eq_refl) (WL c (or_introl eq_refl)) _ _ _ _ B0 (SV x (or_introl eq_refl))) as K1.
        destruct (IL (fun c' C => IH c' (or_intror C)) (fun c' C => WL c' (or_intror C)) pm states) as (Z2 & F2).
        { intros y Y. specialize (SV y (or_intror Y)). unfold live in *. lia. }
        { exact B. }
        split; [lia|]. intros q Q N. rewrite F2; [apply K1; [exact Q|]|lia|]; intros C; apply N; cbn; auto. }
    destruct KS as (Z2 & K2).
    assert (K3 : zlen (sts p3) = zlen (sts p2) /\ forall q, q < zlen (sts p2) -> ~ In q (first :: rest) -> zget (sts p3) q = zget (sts p2) q).
    { destruct gp_last0 as (lc & l0 & st0 & EL & ES & _ & B). destruct (isOptional lc); [|injection B as <-; auto].
      apply addRule_keeps in B. destruct B as (B1 & B2). split; [exact B2|]. intros q Q N. apply B1; [exact Q|].
      intros ->. apply N. rewrite ES. apply in_app_iff. right. left. reflexivity. }
    destruct K3 as (Z3 & K3).
    destruct (copyBack_keeps _ _ _ _ gp_copy0) as (Z4 & K4).
    intros q Q NS.
    assert (NI : ~ In q (first :: rest)). { intros C. specialize (SL q C). lia. }
    assert (NR : ~ In q (removelast (first :: rest))).
    { intros C. apply NI. revert C. clear. generalize (first :: rest). intros l. induction l as [|x l IH]; [auto|].
      destruct l as [|y l]; [intros []|]. change (removelast (x :: y :: l)) with (x :: removelast (y :: l)). intros [<-|C]; [left; reflexivity|right; auto]. }
    assert (E4 : zget (sts p4) q = zget (sts p) q).
    { rewrite (K4 q NR). rewrite K3 by (auto; lia). rewrite K2 by (auto; lia). apply gp_old0, Q. }
    destruct (rep && (1 <? zlen l)); [|injection gp_extra0 as <-; exact E4].
    apply copyRules_keeps in gp_extra0. destruct gp_extra0 as (_ & F5). rewrite (F5 q NS). exact E4.
  - inversion W as [| | |? NE WL|]; subst. rewrite buildStates_var in H. clear W NE. revert p p' H LV.
    induction l as [|c l IL]; intros p p' H LV; cbn [buildVar] in H.
    + injection H as <-. intros q _ _. reflexivity.
    + ob H. rename x into pm. pose proof (build_zlen _ _ _ _ _ _ (WL c (or_introl eq_refl)) H0) as Z1.
      pose proof (IH c (or_introl eq_refl) (WL c (or_introl eq_refl)) _ _ _ _ H0 LV) as K1.
      assert (LV' : live pm s) by (unfold live in *; lia).
      pose proof (IL (fun c' C => IH c' (or_intror C)) (fun c' C => WL c' (or_intror C)) pm p' H LV') as K2.
      intros q Q N. rewrite K2 by (auto; lia). apply K1; auto.
Qed.
