(** The state machine of a definition accepts every string of the definition. *)
From Coq Require Import ZArith List Bool Lia.
From Verif Require Import Base BaseProofs Grammar LangBuild LangSpec LangProofs LangFrame.
Import ListNotations.
Open Scope Z_scope.

(** ** Languages *)
Scheme derives_mut := Induction for derives Sort Prop
with derivesSeq_mut := Induction for derivesSeq Sort Prop.
Combined Scheme derives_both from derives_mut, derivesSeq_mut.

Lemma cut_app_cut w v : cut (w ++ cut v) = cut (w ++ v).
Proof.
  induction w as [|x w IH]; cbn [app].
  - induction v as [|y v IV]; [reflexivity|]. destruct y; cbn [cut]; rewrite ?IV; reflexivity.
  - destruct x; cbn [cut]; rewrite ?IH; reflexivity.
Qed.

Lemma derives_empty starts :
  (forall c w, derives starts c w -> w = [] -> isOptional c = true) /\
  (forall l w, derivesSeq starts l w -> w = [] -> forallb isOptional l = true).
Proof.
  apply derives_both; intros; try discriminate.
  - cbn [isOptional]. apply existsb_exists. eauto.
  - cbn [isOptional]. apply orb_true_iff. auto.
  - reflexivity.
  - subst. apply app_eq_nil in H1. destruct H1 as (-> & ->). cbn [isOptional]. apply orb_true_iff. auto.
  - reflexivity.
  - apply app_eq_nil in H1. destruct H1 as (-> & ->). cbn [forallb]. rewrite H, H0 by reflexivity. reflexivity.
Qed.
Lemma seq_empty starts l : derivesSeq starts l [] -> forallb isOptional l = true.
Proof. intros D. exact (proj2 (derives_empty starts) _ _ D eq_refl). Qed.
Lemma chunk_empty starts c : derives starts c [] -> isOptional c = true.
Proof. intros D. exact (proj1 (derives_empty starts) _ _ D eq_refl). Qed.

Lemma optional_derives starts c : written c -> isOptional c = true -> derives starts c [].
Proof.
  induction c as [t| |i|opt rep l IH|l IH] using chunk_nest; intros W H; try discriminate.
  - inversion W as [| | | |? ? ? NE RO WL]; subst. cbn [isOptional] in H. destruct opt; [apply D_never|].
    cbn [orb] in H. apply D_once. clear W NE RO. induction l as [|c l IL]; [constructor|].
    cbn [forallb] in H. apply andb_true_iff in H. destruct H as (H1 & H2).
    change (@nil sym) with (@nil sym ++ []). constructor; [apply IH; [left; reflexivity|apply WL; left; reflexivity|exact H1]|].
    apply IL; [intros c' C; apply IH; right; exact C|exact H2|intros c' C; apply WL; right; exact C].
  - inversion W as [| | |? NE WL|]; subst. cbn [isOptional] in H. apply existsb_exists in H. destruct H as (c & C & H).
    eapply D_variant; [exact C|]. apply IH; auto.
Qed.
Lemma optionals_derive starts l : (forall c, In c l -> written c) -> forallb isOptional l = true -> derivesSeq starts l [].
Proof.
  induction l as [|c l IH]; intros W H; [constructor|]. cbn [forallb] in H. apply andb_true_iff in H. destruct H as (H1 & H2).
  change (@nil sym) with (@nil sym ++ []). constructor; [apply optional_derives; [apply W; left; reflexivity|exact H1]|].
  apply IH; [intros c' C; apply W; right; exact C|exact H2].
Qed.

Lemma repeated starts opt l w : derives starts (CGroup opt true l) w -> exists ws, Forall (derivesSeq starts l) ws /\ w = concat ws.
Proof.
  intros D. remember (CGroup opt true l) as c eqn:C. revert C.
  induction D as [| | |? ? ? ? ? _|o r l' w DS|r l'|o l' w v DS D IH] ; intros Q; try discriminate.
  - injection Q as _ _ ->. exists [w]. split; [auto|]. cbn. rewrite app_nil_r. reflexivity.
  - injection Q as _ _ ->. exists []. split; [constructor|reflexivity].
  - injection Q as -> ->. destruct (IH eq_refl) as (ws & F & ->). exists (w :: ws). split; [auto|reflexivity].
Qed.

Section Complete.
Variable firsts : list (list Z).
Hypothesis TF : tokensFirst firsts.
Definition starts (i t : Z) : Prop := In t (firstsOf firsts i).

(** the first step takes a symbol *)
Definition plus (pf : pres) (s : Z) (x : list sym) : Prop :=
  exists r u, has pf s r /\ rToken r <> AnyToken /\ x = label r ++ u /\ accepts (has pf) (rState r) u.
Lemma plus_accepts pf s x : plus pf s x -> accepts (has pf) s x.
Proof. intros (r & u & A & _ & -> & B). apply A_rule; assumption. Qed.
Lemma plus_incl pf s s' x : (forall r, has pf s' r -> rToken r <> AnyToken -> has pf s r) -> plus pf s' x -> plus pf s x.
Proof. intros I (r & u & A & B & C & D). exists r, u. auto. Qed.

(** the tables [pf] are made from [p'] with no changes in the states made after [p] and no losses in
    the state [s] *)
Definition future (p p' pf : pres) (s : Z) : Prop :=
  (forall q, zlen (sts p) <= q < zlen (sts p') -> zget (sts pf) q = zget (sts p') q) /\
  (forall r, has p' s r -> rToken r <> AnyToken -> has pf s r).

(** what is to be proved for a definition [c] between the states [s] and [n] *)
Definition through (pf : pres) (c : chunk) (s n : Z) : Prop := forall w v, derives starts c w -> w <> [] ->
  accepts (has pf) n (cut v) -> (isOptional c = true -> accepts (has pf) s (cut v)) -> plus pf s (cut (w ++ v)).

(** a sequence *)
Inductive chain (pf : pres) (tail : Z) : list chunk -> list Z -> Prop :=
| Ch_one c s : through pf c s tail -> chain pf tail [c] [s]
| Ch_cons c s c' l s' ss : through pf c s s' ->
    (isOptional c = true -> forall r, has pf s' r -> rToken r <> AnyToken -> has pf s r) ->
    (forallb isOptional (c' :: l) = true -> has pf s' (mkRule AnyToken tail SameNode)) ->
    chain pf tail (c' :: l) (s' :: ss) -> chain pf tail (c :: c' :: l) (s :: s' :: ss).

Lemma accepts_any pf s tail x : has pf s (mkRule AnyToken tail SameNode) -> accepts (has pf) tail x -> accepts (has pf) s x.
Proof. intros A B. change x with (label (mkRule AnyToken tail SameNode) ++ x). apply A_rule; assumption. Qed.

Lemma chain_complete pf tail l states : chain pf tail l states -> forall w v, derivesSeq starts l w ->
  accepts (has pf) tail (cut v) -> (forallb isOptional l = true -> accepts (has pf) (hd 0 states) (cut v)) ->
  (w <> [] -> plus pf (hd 0 states) (cut (w ++ v))) /\ accepts (has pf) (hd 0 states) (cut (w ++ v)).
Proof.
  induction 1 as [c s T|c s c' l s' ss T I B CH IH]; intros w v D A O; cbn [hd] in *.
  - inversion D as [|? ? w0 w1 D0 D1]; subst. inversion D1; subst. rewrite app_nil_r.
    assert (OC : isOptional c = true -> accepts (has pf) s (cut v)). { intros C. apply O. cbn [forallb]. rewrite C. reflexivity. }
    assert (P : w0 <> [] -> plus pf s (cut (w0 ++ v))). { intros NE. apply T; auto. }
    split; [exact P|]. destruct w0 as [|x w0]; [apply OC, (chunk_empty _ _ D0)|apply plus_accepts, P; discriminate].
  - inversion D as [|? ? w0 w1 D0 D1]; subst.
    destruct (IH w1 v D1 A) as (P1 & A1).
    { intros C. eapply accepts_any; [apply B, C|exact A]. }
    assert (OC : isOptional c = true -> accepts (has pf) s (cut (w1 ++ v))).
    { intros C. destruct w1 as [|x w1].
      - apply O. cbn [forallb]. rewrite C. exact (seq_empty _ _ D1).
      - apply plus_accepts. eapply plus_incl; [apply I, C|]. apply P1. discriminate. }
    rewrite <- app_assoc. destruct w0 as [|x w0].
    + cbn [app]. split; [|apply OC, (chunk_empty _ _ D0)]. intros NE. eapply plus_incl; [apply I, (chunk_empty _ _ D0)|apply P1, NE].
    + assert (P : plus pf s (cut ((x :: w0) ++ w1 ++ v))). { apply T; [exact D0|discriminate|exact A1|exact OC]. }
      split; [intros _; exact P|apply plus_accepts, P].
Qed.

(** *** From the building of a sequence to a chain *)
Lemma more_trans p p' p'' : more p p' -> more p' p'' -> more p p''.
Proof. intros A B i r X N. apply B; [apply A; assumption|exact N]. Qed.

Definition member (c : chunk) : Prop := forall s n p p' pf, buildStates firsts c s n p = Some p' -> tidy p -> live p s ->
  future p p' pf s -> through pf c s n.

Fixpoint throughs (pf : pres) (tail : Z) (l : list chunk) (states : list Z) : Prop :=
  match l, states with
  | c :: l', s :: ss => through pf c s (hd tail ss) /\ throughs pf tail l' ss
  | _, _ => True
  end.
Lemma seq_tidy l : (forall c, In c l -> written c) -> forall states tail p p', buildSeq firsts l states tail p = Some p' -> tidy p -> tidy p' /\ more p p'.
Proof.
  induction l as [|c l IH]; intros W states tail p p' H T.
  - cbn in H. injection H as <-. split; [exact T|intros i r X _; exact X].
  - destruct states as [|s ss]; [discriminate H|]. cbn [buildSeq] in H. ob H.
    destruct (build_tidy _ _ _ _ _ _ TF (W c (or_introl eq_refl)) H0 T) as (T1 & M1).
    destruct (IH (fun c' C => W c' (or_intror C)) _ _ _ _ H T1) as (T2 & M2). split; [exact T2|eapply more_trans; eassumption].
Qed.
Lemma seq_keeps l : (forall c, In c l -> written c) -> forall states tail p p', buildSeq firsts l states tail p = Some p' ->
  (forall x, In x states -> live p x) ->
  zlen (sts p) <= zlen (sts p') /\ forall q, q < zlen (sts p) -> ~ In q states -> zget (sts p') q = zget (sts p) q.
Proof.
  induction l as [|c l IH]; intros W states tail p p' H LV.
  - cbn in H. injection H as <-. split; [lia|auto].
  - destruct states as [|s ss]; [discriminate H|]. cbn [buildSeq] in H. ob H. rename x into pm.
    pose proof (build_zlen _ _ _ _ _ _ (W c (or_introl eq_refl)) H0) as Z1.
    pose proof (build_keeps _ _ (W c (or_introl eq_refl)) _ _ _ _ H0 (LV s (or_introl eq_refl))) as K1.
    destruct (IH (fun c' C => W c' (or_intror C)) ss tail pm p' H) as (Z2 & F2).
    { intros y Y. specialize (LV y (or_intror Y)). unfold live in *. lia. }
    split; [lia|]. intros q Q N. rewrite F2; [apply K1; [exact Q|]|lia|]; intros C; apply N; cbn; auto.
Qed.
Lemma seq_throughs l : (forall c, In c l -> written c) -> (forall c, In c l -> member c) -> forall states tail p p' pf,
  buildSeq firsts l states tail p = Some p' -> tidy p -> (forall x, In x states -> live p x) ->
  (forall q, zlen (sts p) <= q < zlen (sts p') -> zget (sts pf) q = zget (sts p') q) ->
  (forall s, In s states -> forall r, has p' s r -> rToken r <> AnyToken -> has pf s r) ->
  throughs pf tail l states.
Proof.
  induction l as [|c l IH]; intros W M states tail p p' pf H T LV FR PL; [exact I|].
  destruct states as [|s ss]; [exact I|]. cbn [buildSeq] in H. ob H. rename x into pm.
  pose proof (W c (or_introl eq_refl)) as Wc.
  pose proof (build_zlen _ _ _ _ _ _ Wc H0) as Z1. destruct (build_tidy _ _ _ _ _ _ TF Wc H0 T) as (T1 & M1).
  assert (LV' : forall x, In x ss -> live pm x). { intros y Y. specialize (LV y (or_intror Y)). unfold live in *. lia. }
  destruct (seq_keeps _ (fun c' C => W c' (or_intror C)) _ _ _ _ H LV') as (Z2 & F2).
  destruct (seq_tidy _ (fun c' C => W c' (or_intror C)) _ _ _ _ H T1) as (T2 & M2).
  cbn [throughs]. split.
  - eapply (M c (or_introl eq_refl)); [exact H0|exact T|apply LV; left; reflexivity|]. split.
    + intros q Q. rewrite FR by lia. apply F2; [lia|]. intros C. specialize (LV q (or_intror C)). unfold live in LV. lia.
    + intros r X N. apply PL; [left; reflexivity| |exact N]. apply M2; assumption.
  - eapply IH; [intros c' C; apply W; right; exact C|intros c' C; apply M; right; exact C|exact H|exact T1|exact LV'| |].
    + intros q Q. apply FR. lia.
    + intros x X. apply PL. right. exact X.
Qed.

(** *** Copying rules backwards *)
Lemma removelast_In {A} (l : list A) x : In x (removelast l) -> In x l.
Proof.
  induction l as [|a l IH]; [auto|]. destruct l as [|y l]; [intros []|].
  change (removelast (a :: y :: l)) with (a :: removelast (y :: l)). intros [<-|C]; [left; reflexivity|right; auto].
Qed.
Inductive copied (p : pres) : list chunk -> list Z -> Prop :=
| Cp_one c s : copied p [c] [s]
| Cp_cons c s c' l s' ss : (isOptional c = true -> forall r, has p s' r -> has p s r) ->
    copied p (c' :: l) (s' :: ss) -> copied p (c :: c' :: l) (s :: s' :: ss).
Lemma copied_same p p' l states : copied p l states -> (forall q, In q states -> zget (sts p') q = zget (sts p) q) -> copied p' l states.
Proof.
  induction 1 as [c s|c s c' l s' ss I C IH]; intros F; constructor.
  - intros OC r X. unfold has, hasRule in *. rewrite F in X |- * by (cbn; auto). apply I; assumption.
  - apply IH. intros q Q. apply F. right. exact Q.
Qed.
Lemma copyBack_copied l : forall states p p', copyBack l states p = Some p' -> okP p -> length l = length states -> l <> [] -> NoDup states ->
  copied p' l states /\ okP p'.
Proof.
  induction l as [|c l IH]; intros states p p' H O LE NE ND; [contradiction|].
  destruct l as [|c' l].
  - destruct states as [|s [|? ?]]; try discriminate. cbn in H. injection H as <-. split; [constructor|exact O].
  - destruct states as [|s [|s' states]]; try discriminate.
    change (copyBack (c :: c' :: l) (s :: s' :: states) p) with
      (do p <- copyBack (c' :: l) (s' :: states) p; if isOptional c then copyRules p s s' else Some p) in H.
    ob H. rename x into p1. inversion ND as [|? ? N1 N2]; subst.
    destruct (IH (s' :: states) p p1 H0 O) as (C1 & O1); [cbn in *; lia|discriminate|exact N2|].
    destruct (isOptional c) eqn:OC.
    + destruct (copyRules_spec _ _ _ _ O1 H) as (L & L' & F & O' & S). split; [|exact O']. constructor.
      * intros _ r X. apply S. left. apply (has_onlyAt _ _ _ _ _ F) in X; [exact X|]. intros ->. apply N1. left. reflexivity.
      * eapply copied_same; [exact C1|]. intros q Q. apply F. intros ->. contradiction.
    + injection H as <-. split; [|exact O1]. constructor; [congruence|exact C1].
Qed.
(** a rule of the last state gets to the first one when everything may be omitted *)
Lemma copied_last p l states ls r l0 lc st0 : copied p l states -> l = l0 ++ [lc] -> states = st0 ++ [ls] -> has p ls r -> forallb isOptional l0 = true -> has p (hd 0 states) r.
Proof.
  intros C. revert l0 st0. induction C as [c s|c s c' l s' ss I C IH]; intros l0 st0 EL ES X O.
  - destruct st0 as [|? [|? ?]]; try discriminate. injection ES as ->. exact X.
  - destruct st0 as [|? st0]; [discriminate|]. injection ES as <- ES. destruct l0 as [|? l0]; [discriminate|]. injection EL as <- EL.
    cbn [forallb] in O. apply andb_true_iff in O. destruct O as (O1 & O2). cbn [hd]. apply I; [exact O1|]. exact (IH l0 st0 EL ES X O2).
Qed.

(** ** Groups *)
Lemma build_chain pf l states tail p : copied p l states -> throughs pf tail l states ->
  (forall s, In s (tl states) -> zget (sts pf) s = zget (sts p) s) ->
  (forall r, has p (hd 0 states) r -> rToken r <> AnyToken -> has pf (hd 0 states) r) ->
  (forall l0 lc st0 ls, l = l0 ++ [lc] -> states = st0 ++ [ls] -> isOptional lc = true -> has p ls (mkRule AnyToken tail SameNode)) ->
  chain pf tail l states.
Proof.
  induction 1 as [c s|c s c' l s' ss I C IH]; intros TH FR PL AN.
  - cbn in TH. constructor. apply TH.
  - cbn [throughs hd tl] in *.
    assert (FR1 : forall r, has pf s' r <-> has p s' r). { intros r. unfold has, hasRule. rewrite FR by (left; reflexivity). reflexivity. }
    assert (AN1 : forall l0 lc st0 ls, c' :: l = l0 ++ [lc] -> s' :: ss = st0 ++ [ls] -> isOptional lc = true -> has p ls (mkRule AnyToken tail SameNode)).
    { intros l0 lc st0 ls EL ES O. apply (AN (c :: l0) lc (s :: st0) ls); [cbn; rewrite EL; reflexivity|cbn; rewrite ES; reflexivity|exact O]. }
    constructor.
    + apply TH.
    + intros OC r X N. apply PL; [|exact N]. apply I; [exact OC|]. apply FR1, X.
    + intros FO. apply FR1. destruct (exists_last (l := c' :: l)) as (l0 & lc & EL); [discriminate|].
      destruct (exists_last (l := s' :: ss)) as (st0 & ls & ES); [discriminate|].
      rewrite EL, forallb_app in FO. apply andb_true_iff in FO. destruct FO as (F1 & F2). cbn in F2. rewrite andb_true_r in F2.
      change s' with (hd 0 (s' :: ss)). eapply copied_last; [exact C|exact EL|exact ES| |exact F1]. exact (AN1 _ _ _ _ EL ES F2).
    + apply IH; [apply TH| | |exact AN1].
      * intros q Q. apply FR. destruct ss; [destruct Q|]. right. exact Q.
      * cbn [hd]. intros r X _. apply FR1, X.
Qed.

Lemma addRule_tidy p i st nt ks p' : (forall k, In k ks -> okRule firsts st nt k) -> addRule p i st nt ks = Some p' -> tidy p -> tidy p' /\ more p p'.
Proof.
  intros OK H. apply (rel_addRule firsts (fun p p' => tidy p -> tidy p' /\ more p p')) with (i := i) (st := st) (nt := nt) (ks := ks); auto.
  - intros p0 T. split; [exact T|]. intros j r X _. exact X.
  - intros p0 p1 p2 A B T. destruct (A T) as (T1 & M1). destruct (B T1) as (T2 & M2). split; [exact T2|eapply more_trans; eassumption].
  - intros; eapply addRule1_tidy; eassumption.
Qed.
Lemma copyBack_tidy l states p p' : copyBack l states p = Some p' -> tidy p -> tidy p' /\ more p p'.
Proof.
  intros H. apply (rel_copyBack (fun p p' => tidy p -> tidy p' /\ more p p')) with (l := l) (states := states); auto.
  - intros p0 T. split; [exact T|]. intros j r X _. exact X.
  - intros p0 p1 p2 A B T. destruct (A T) as (T1 & M1). destruct (B T1) as (T2 & M2). split; [exact T2|eapply more_trans; eassumption].
  - intros; eapply copyRules_tidy; eassumption.
Qed.

Lemma tidy_grown p p1 : tidy p -> okP p1 -> (forall q, q < zlen (sts p) -> zget (sts p1) q = zget (sts p) q) ->
  (forall q, zlen (sts p) <= q < zlen (sts p1) -> zget (sts p1) q = Some (mkEntry 0 [] [])) -> tidy p1 /\ more p p1.
Proof.
  intros [O EO NK] O1 A B.
  assert (X : forall q r, has p1 q r -> has p q r).
  { intros q r (e & G & Y). pose proof (zget_Some_inv _ _ _ G) as Q. destruct (Z.lt_ge_cases q (zlen (sts p))) as [LT|GE].
    - rewrite A in G by exact LT. exists e. auto.
    - rewrite B in G by lia. injection G as <-. destruct Y. }
  split; [split; [exact O1| |]|].
  - intros q r Y. apply EO with (i := q). auto.
  - intros q r Y. apply NK with (i := q). auto.
  - intros q r (e & G & Y) _. exists e. split; [|exact Y]. rewrite A; [exact G|]. apply zget_Some_inv in G. lia.
Qed.
Lemma grown_ok p p1 : okP p -> (forall q, q < zlen (sts p) -> zget (sts p1) q = zget (sts p) q) ->
  (forall q, zlen (sts p) <= q < zlen (sts p1) -> zget (sts p1) q = Some (mkEntry 0 [] [])) -> okP p1.
Proof.
  intros O A B q e G. pose proof (zget_Some_inv _ _ _ G) as Q. destruct (Z.lt_ge_cases q (zlen (sts p))) as [LT|GE].
  - rewrite A in G by exact LT. eapply O, G.
  - rewrite B in G by lia. injection G as <-. apply empty_entryOk.
Qed.

Lemma addRule_one p i st nt k p' : okP p -> addRule p i st nt [k] = Some p' ->
  live p i /\ onlyAt p p' i /\ okP p' /\ forall r, has p' i r <-> r = mkRule k st nt \/ (has p i r /\ (k < 0 -> rToken r <> k)).
Proof. intros O H. cbn [addRule] in H. ob H. injection H as <-. apply addRule1_spec; assumption. Qed.

Lemma group_chain opt rep l s n p p' first rest p1 p2 p3 p4 ls pf :
  (forall c, In c l -> written c) -> (forall c, In c l -> member c) -> l <> [] -> (rep = true -> opt = true) ->
  tidy p -> live p s -> groupParts firsts rep l s n p p' first rest p1 p2 p3 p4 ls -> future p p' pf s ->
  chain pf (if rep then s else n) l (first :: rest) /\
  (first <> s -> forallb isOptional l = true -> has pf first (mkRule AnyToken (if rep then s else n) SameNode)) /\
  (forall r, has pf first r -> rToken r <> AnyToken -> has pf s r).
Proof.
  intros W M NE RO T LV G (FU & PL). destruct G as [gp_len0 gp_first0 gp_rest0 gp_nodup0 gp_zlen0 gp_old0 gp_new0 gp_seq0 gp_last0 gp_copy0 gp_extra0 gp_cells0].
  assert (LVS : forall x, In x (first :: rest) -> live p1 x).
  { intros x X. unfold live in *. destruct X as [<-|X]; [|specialize (gp_rest0 x X); pose proof (zlen_nonneg (sts p)); lia].
    destruct gp_first0 as [(-> & _)|(Q & _)]; pose proof (zlen_nonneg (sts p)); lia. }
  assert (T1 : tidy p1). { apply (tidy_grown p); [exact T| |exact gp_old0|exact gp_new0]. eapply grown_ok; [apply T|exact gp_old0|exact gp_new0]. }
  destruct (seq_tidy _ W _ _ _ _ gp_seq0 T1) as (T2 & M12).
  destruct (seq_keeps _ W _ _ _ _ gp_seq0 LVS) as (Z12 & K12).
  destruct gp_last0 as (lc & l0 & st0 & EL & ES & LEN & BP).
  assert (LSI : In ls (first :: rest)). { rewrite ES. apply in_app_iff. right. left. reflexivity. }
  assert (T3 : tidy p3 /\ more p2 p3 /\ zlen (sts p3) = zlen (sts p2) /\ (forall q, q <> ls -> zget (sts p3) q = zget (sts p2) q) /\
    (isOptional lc = true -> has p3 ls (mkRule AnyToken (if rep then s else n) SameNode))).
  { destruct (isOptional lc).
    - unfold bypassRule in BP. assert (OK : forall k, In k [AnyToken] -> okRule firsts (if rep then s else n) SameNode k) by (intros k [<-|[]]; right; right; left; auto).
      destruct (addRule_tidy _ _ _ _ _ _ OK BP T2) as (A & B).
      destruct (addRule_one _ _ _ _ _ _ (td_ok _ T2) BP) as (_ & (Z & F) & _ & S).
      split; [exact A|]. split; [exact B|]. split; [exact Z|]. split; [exact F|]. intros _. apply S. left. reflexivity.
    - injection BP as <-. split; [exact T2|]. split; [intros i r X _; exact X|]. split; [reflexivity|]. split; [reflexivity|discriminate]. }
  destruct T3 as (T3 & M23 & Z23 & F23 & AN3).
  destruct (copyBack_tidy _ _ _ _ gp_copy0 T3) as (T4 & M34).
  destruct (copyBack_keeps _ _ _ _ gp_copy0) as (Z34 & K34).
  assert (LE : length l = length (first :: rest)). { cbn [length]. rewrite gp_len0. destruct l; [contradiction|cbn; lia]. }
  destruct (copyBack_copied _ _ _ _ gp_copy0 (td_ok _ T3) LE NE gp_nodup0) as (CP & _).
  assert (LSN : ~ In ls (removelast (first :: rest))).
  { rewrite ES in gp_nodup0 |- *. rewrite removelast_last. intros C. apply NoDup_remove_2 in gp_nodup0. apply gp_nodup0. rewrite app_nil_r. exact C. }
  assert (AN4 : isOptional lc = true -> has p4 ls (mkRule AnyToken (if rep then s else n) SameNode)).
  { intros OC. unfold has, hasRule. rewrite (K34 ls LSN). apply AN3, OC. }
  (* after copying to the entry state *)
  assert (E5 : (forall q, q <> s -> zget (sts p') q = zget (sts p4) q) /\ zlen (sts p') = zlen (sts p4) /\ more p4 p' /\
     (forall r, has p4 first r -> has p' s r)).
  { destruct gp_first0 as [(-> & NX)|(FN & NX)]; rewrite NX in gp_extra0.
    - injection gp_extra0 as <-. split; [reflexivity|]. split; [reflexivity|]. split; [intros i r X _; exact X|auto].
    - destruct (copyRules_tidy _ _ _ _ gp_extra0 T4) as (_ & M45). destruct (copyRules_spec _ _ _ _ (td_ok _ T4) gp_extra0) as (_ & _ & (Z & F) & _ & S).
      split; [exact F|]. split; [exact Z|]. split; [exact M45|]. intros r X. apply S. left. exact X. }
  destruct E5 as (F5 & Z5 & M5 & X5).
  assert (NEW : forall q, zlen (sts p) <= q < zlen (sts p4) -> zget (sts pf) q = zget (sts p4) q).
  { intros q Q. rewrite FU by lia. apply F5. unfold live in LV. lia. }
  assert (NEWS : forall q r, zlen (sts p) <= q < zlen (sts p4) -> (has pf q r <-> has p4 q r)).
  { intros q r Q. unfold has, hasRule. rewrite NEW by exact Q. reflexivity. }
  assert (FN : first <> s -> zlen (sts p) <= first < zlen (sts p4)).
  { intros N. destruct gp_first0 as [(Q & _)|(Q & _)]; [contradiction|lia]. }
  assert (FP : forall r, has p4 first r -> rToken r <> AnyToken -> has pf first r).
  { intros r X N. destruct (Z.eq_dec first s) as [Q|Q]; [|apply NEWS; [apply FN, Q|exact X]].
    rewrite Q in X |- *. apply PL; [|exact N]. apply M5; assumption. }
  split; [|split].
  - apply (build_chain pf l (first :: rest) _ p4); [exact CP| | | |].
    + eapply (seq_throughs l W M); [exact gp_seq0|exact T1|exact LVS| |].
      * intros q Q. rewrite NEW by lia.
        assert (NI : ~ In q (first :: rest)). { intros C. specialize (LVS q C). unfold live in LVS. lia. }
        rewrite K34 by (intros C; apply NI, removelast_In, C). apply F23. intros ->. contradiction.
      * intros x X r Y N. assert (Y4 : has p4 x r). { apply M34; [apply M23; assumption|exact N]. }
        destruct X as [<-|X]; [apply FP; assumption|]. apply NEWS; [|exact Y4]. specialize (gp_rest0 x X). lia.
    + cbn [tl]. intros x X. apply NEW. specialize (gp_rest0 x X). lia.
    + cbn [hd]. exact FP.
    + intros l0' lc' st0' ls' EL' ES' OC. rewrite EL in EL'. apply app_inj_tail in EL'. destruct EL' as (_ & <-).
      rewrite ES in ES'. apply app_inj_tail in ES'. destruct ES' as (_ & <-). apply AN4, OC.
  - intros N FO. apply NEWS; [apply FN, N|]. rewrite EL, forallb_app in FO. apply andb_true_iff in FO. destruct FO as (F1 & F2).
    cbn in F2. rewrite andb_true_r in F2. change first with (hd 0 (first :: rest)).
    eapply copied_last; [exact CP|exact EL|exact ES|apply AN4, F2|exact F1].
  - intros r X N. destruct (Z.eq_dec first s) as [Q|Q]; [rewrite Q in X; exact X|]. apply PL; [|exact N]. apply X5. apply NEWS; [apply FN, Q|exact X].
Qed.

(** ** All definitions *)
Lemma addRule_all i st nt : forall ks p p' r, (forall k, In k ks -> okRule firsts st nt k) -> tidy p -> addRule p i st nt ks = Some p' ->
  (exists k, In k ks /\ r = mkRule k st nt /\ k <> AnyToken) -> has p' i r.
Proof.
  induction ks as [|k ks IH]; intros p p' r OK T H (k' & K & -> & N); [destruct K|]. cbn [addRule] in H. ob H. rename x into p1.
  destruct (addRule1_tidy _ _ _ _ _ _ _ TF (OK k (or_introl eq_refl)) H0 T) as (T1 & _).
  destruct K as [->|K].
  - destruct (addRule_tidy _ _ _ _ _ _ (fun k K => OK k (or_intror K)) H T1) as (_ & M). apply M; [|exact N].
    apply (addRule1_spec _ _ _ _ _ _ (td_ok _ T) H0). left. reflexivity.
  - eapply IH; [intros k2 K2; apply OK; right; exact K2|exact T1|exact H|]. exists k'. auto.
Qed.

Theorem build_complete c : written c -> member c.
Proof.
  induction c as [t| |i|opt rep l IH|l IH] using chunk_nest; intros W s n p p' pf H T LV FU w v D NE A O.
  - inversion W; subst. inversion D; subst. cbn [buildStates] in H.
    exists (mkRule t n SameNode), (cut v). assert (NT : t <> AnyToken) by (unfold AnyToken; lia).
    split; [|split; [exact NT|split; [|exact A]]].
    + apply FU; [|exact NT]. eapply addRule_all; [|exact T|exact H|exists t; cbn; auto]. intros k [<-|[]]. left. auto.
    + unfold label. cbn [rNode rToken]. rewrite Z.eqb_refl. destruct (Z.eqb_spec t AnyToken); [contradiction|].
      destruct (Z.eqb_spec t EoiToken); [unfold EoiToken in *; lia|]. reflexivity.
  - inversion D; subst. cbn [buildStates] in H. exists eoiRule, []. split; [|split; [discriminate|split; [reflexivity|constructor]]].
    apply FU; [|discriminate]. eapply addRule_all; [|exact T|exact H|exists EoiToken; cbn; split; [auto|split; [reflexivity|discriminate]]].
    intros k [<-|[]]. right. left. auto.
  - inversion W; subst. inversion D as [| |? t ST| | | |]; subst. cbn [buildStates] in H. unfold starts in ST. pose proof (TF _ _ ST) as TP.
    assert (NT : t <> AnyToken) by (unfold AnyToken; lia).
    exists (mkRule t n i), (cut v). split; [|split; [exact NT|split; [|exact A]]].
    + apply FU; [|exact NT]. eapply addRule_all; [|exact T|exact H|exists t; auto]. intros k K. right. right. right. auto.
    + unfold label. cbn [rNode rToken]. destruct (Z.eqb_spec i SameNode); [unfold SameNode in *; lia|]. reflexivity.
  - inversion W as [| | | |? ? ? NL RO WL]; subst.
    destruct (group_parts _ _ _ _ _ _ _ _ LV H) as (first & rest & p1 & p2 & p3 & p4 & ls & G).
    destruct (group_chain opt rep l s n p p' first rest p1 p2 p3 p4 ls pf WL (fun c C => IH c C (WL c C)) NL RO T LV G FU) as (CH & AN & IN).
    pose proof (gp_first _ _ _ _ _ _ _ _ _ _ _ _ _ _ G) as GF. destruct rep.
    + rewrite (RO eq_refl) in *. clear RO. assert (OS : accepts (has pf) s (cut v)) by (apply O; reflexivity).
      destruct (repeated _ _ _ _ D) as (ws & F & ->). clear D.
      assert (X : accepts (has pf) s (cut (concat ws ++ v)) /\ (concat ws <> [] -> plus pf s (cut (concat ws ++ v)))).
      { clear NE. induction F as [|w ws D F IF]; [split; [exact OS|intros C; contradiction C; reflexivity]|].
        destruct IF as (A1 & P1). cbn [concat]. rewrite <- app_assoc.
        destruct (chain_complete _ _ _ _ CH w (concat ws ++ v) D A1) as (P2 & A2).
        { cbn [hd]. intros FO. destruct (Z.eq_dec first s) as [Q|Q]; [rewrite Q; exact A1|]. eapply accepts_any; [apply AN; assumption|exact A1]. }
        cbn [hd] in P2, A2.
        destruct w as [|y w].
        - cbn [app]. split; [exact A1|exact P1].
        - assert (P3 : plus pf s (cut ((y :: w) ++ concat ws ++ v))). { eapply plus_incl; [exact IN|apply P2; discriminate]. }
          split; [apply plus_accepts, P3|intros _; exact P3]. }
      apply X, NE.
    + destruct GF as [(-> & _)|(_ & C)]; [|discriminate C].
      inversion D as [| | | |? ? ? ? DS| |]; subst; [|contradiction NE; reflexivity].
      destruct (chain_complete _ _ _ _ CH w v DS A) as (P2 & _).
      { cbn [hd]. intros FO. apply O. cbn [isOptional]. rewrite FO. apply orb_true_r. }
      apply P2, NE.
  - inversion W as [| | |? NL WL|]; subst. inversion D as [| | |? c ? C DC| | |]; subst. rewrite buildStates_var in H.
    assert (X : forall c, In c l -> isOptional c = true -> isOptional (CVar l) = true). { intros c0 C0 O0. cbn [isOptional]. apply existsb_exists. eauto. }
    assert (Y : exists pa pb, buildStates firsts c s n pa = Some pb /\ tidy pa /\ live pa s /\ future pa pb pf s).
    { clear D DC O X W NL. revert p H T LV FU. induction l as [|c0 l IL]; intros p H T LV FU; [destruct C|]. cbn [buildVar] in H. ob H. rename x into pm.
      pose proof (build_zlen _ _ _ _ _ _ (WL c0 (or_introl eq_refl)) H0) as Z1. destruct (build_tidy _ _ _ _ _ _ TF (WL c0 (or_introl eq_refl)) H0 T) as (T1 & _).
      assert (LV' : live pm s) by (unfold live in *; lia).
      assert (Z2 : zlen (sts pm) <= zlen (sts p') /\ keeps pm p' s /\ more pm p').
      { clear - H LV' WL T1 TF. assert (WL' : forall c, In c l -> written c) by (intros; apply WL; right; assumption). clear WL. revert pm H LV' T1.
        induction l as [|c l IL]; intros pm H LV T1; cbn [buildVar] in H.
        - injection H as <-. split; [lia|]. split; [intros q _ _; reflexivity|intros i r X _; exact X].
        - ob H. pose proof (build_zlen _ _ _ _ _ _ (WL' c (or_introl eq_refl)) H0) as Z1.
          pose proof (build_keeps _ _ (WL' c (or_introl eq_refl)) _ _ _ _ H0 LV) as K1.
          destruct (build_tidy _ _ _ _ _ _ TF (WL' c (or_introl eq_refl)) H0 T1) as (T2 & M1).
          destruct (IL (fun c0 C => WL' c0 (or_intror C)) x H) as (Z2 & K2 & M2); [unfold live in *; lia|exact T2|].
          split; [lia|]. split; [|eapply more_trans; eassumption]. intros q Q N. rewrite K2 by (auto; lia). apply K1; auto. }
      destruct Z2 as (Z2 & K2 & M2). destruct FU as (F1 & F2).
      destruct C as [->|C].
      - exists p, pm. split; [exact H0|]. split; [exact T|]. split; [exact LV|]. split.
        + intros q Q. rewrite F1 by lia. apply K2; [lia|]. unfold live in LV. lia.
        + intros r R N. apply F2; [|exact N]. apply M2; assumption.
      - apply (IL (fun c1 C1 => IH c1 (or_intror C1)) (fun c1 C1 => WL c1 (or_intror C1)) C pm H T1 LV'). split; [|exact F2].
        intros q Q. apply F1. lia. }
    destruct Y as (pa & pb & B & Ta & La & Fa).
    apply (IH c C (WL c C) s n pa pb pf B Ta La Fa w v DC NE A). intros OC. apply O. exact (X c C OC).
Qed.

(** ** Nodes *)
Lemma buildNodes_keeps defs : (forall d, In d defs -> written d) -> forall p fs p', buildNodes firsts defs p = Some (fs, p') -> tidy p ->
  length fs = length defs /\ tidy p' /\ zlen (sts p) <= zlen (sts p') /\ (forall q, q < zlen (sts p) -> zget (sts p') q = zget (sts p) q).
Proof.
  induction defs as [|d defs IH]; intros W p fs p' H T; cbn [buildNodes] in H.
  - injection H as <- <-. split; [reflexivity|]. split; [exact T|]. split; [lia|reflexivity].
  - destruct (addState p) as (f, p1) eqn:A. ob H. rename x into p2. ob H. destruct x as (fs', p3). injection H as <- <-.
    destruct (addState_tidy _ _ _ A T) as (T1 & _). apply addState_spec in A. destruct A as (-> & A2 & A3 & A4 & _).
    assert (LV : live p1 (zlen (sts p))) by (unfold live; pose proof (zlen_nonneg (sts p)); lia).
    destruct (build_tidy _ _ _ _ _ _ TF (W d (or_introl eq_refl)) H0 T1) as (T2 & _).
    pose proof (build_zlen _ _ _ _ _ _ (W d (or_introl eq_refl)) H0) as Z1.
    pose proof (build_keeps _ _ (W d (or_introl eq_refl)) _ _ _ _ H0 LV) as K1.
    destruct (IH (fun d' D => W d' (or_intror D)) _ _ _ H1 T2) as (L3 & T3 & Z3 & K3).
    split; [cbn; lia|]. split; [exact T3|]. split; [lia|]. intros q Q. rewrite K3 by lia. rewrite K1 by lia. apply A3. lia.
Qed.

(** a group of a node definition lets through what follows when everything may be omitted *)
Lemma group_any l s n p p' : (forall c, In c l -> written c) -> l <> [] -> tidy p -> live p s ->
  buildStates firsts (CGroup false false l) s n p = Some p' -> forallb isOptional l = true -> has p' s (mkRule AnyToken n SameNode).
Proof.
  intros W NE T LV H FO.
  destruct (group_parts _ _ _ _ _ _ _ _ LV H) as (first & rest & p1 & p2 & p3 & p4 & ls & G). destruct G as [gp_len0 gp_first0 gp_rest0 gp_nodup0 gp_zlen0 gp_old0 gp_new0 gp_seq0 gp_last0 gp_copy0 gp_extra0 gp_cells0].
  cbn [andb] in *. destruct gp_first0 as [(-> & _)|(_ & C)]; [|discriminate C]. injection gp_extra0 as <-.
  assert (LVS : forall x, In x (s :: rest) -> live p1 x).
  { intros x X. unfold live in *. destruct X as [<-|X]; [|specialize (gp_rest0 x X)]; pose proof (zlen_nonneg (sts p)); lia. }
  assert (T1 : tidy p1). { apply (tidy_grown p); [exact T| |exact gp_old0|exact gp_new0]. eapply grown_ok; [apply T|exact gp_old0|exact gp_new0]. }
  destruct (seq_tidy _ W _ _ _ _ gp_seq0 T1) as (T2 & _).
  destruct gp_last0 as (lc & l0 & st0 & EL & ES & LEN & BP).
  rewrite EL, forallb_app in FO. apply andb_true_iff in FO. destruct FO as (F1 & F2). cbn in F2. rewrite andb_true_r in F2. rewrite F2 in BP.
  destruct (addRule_one _ _ _ _ _ _ (td_ok _ T2) BP) as (_ & _ & O3 & S).
  assert (LE : length l = length (s :: rest)). { cbn [length]. rewrite gp_len0. destruct l; [contradiction|cbn; lia]. }
  destruct (copyBack_copied _ _ _ _ gp_copy0 O3 LE NE gp_nodup0) as (CP & _).
  destruct (copyBack_keeps _ _ _ _ gp_copy0) as (_ & K34).
  change s with (hd 0 (s :: rest)). eapply copied_last; [exact CP|exact EL|exact ES| |exact F1].
  assert (LSN : ~ In ls (removelast (s :: rest))).
  { rewrite ES in gp_nodup0 |- *. rewrite removelast_last. intros C. apply NoDup_remove_2 in gp_nodup0. apply gp_nodup0. rewrite app_nil_r. exact C. }
  unfold has, hasRule. rewrite (K34 ls LSN). apply S. left. reflexivity.
Qed.

Lemma nodes_complete defs : (forall d, In d defs -> exists l, d = CGroup false false l /\ written d) -> forall p fs p' i d f w,
  buildNodes firsts defs p = Some (fs, p') -> tidy p -> nth_error defs i = Some d -> nth_error fs i = Some f ->
  derives starts d w -> accepts (has p') f (cut w).
Proof.
  induction defs as [|d0 defs IH]; intros W p fs p' i d f w H T D F DW.
  - destruct i; discriminate D.
  - cbn [buildNodes] in H. destruct (addState p) as (f0, p1) eqn:A. ob H. rename x into p2. ob H. destruct x as (fs', p3). injection H as <- <-.
    destruct (W d0 (or_introl eq_refl)) as (l & Ed & Wd). destruct (addState_tidy _ _ _ A T) as (T1 & _).
    apply addState_spec in A. destruct A as (-> & A2 & A3 & A4 & _).
    assert (LV : live p1 (zlen (sts p))) by (unfold live; pose proof (zlen_nonneg (sts p)); lia).
    destruct (build_tidy _ _ _ _ _ _ TF Wd H0 T1) as (T2 & _).
    pose proof (build_zlen _ _ _ _ _ _ Wd H0) as Z1.
    destruct i as [|i].
    + injection D as <-. injection F as <-.
      destruct (buildNodes_keeps defs (fun d' D' => match W d' (or_intror D') with ex_intro _ _ (conj _ w) => w end) _ _ _ H1 T2) as (_ & _ & Z3 & K3).
      assert (FU : future p1 p2 p3 (zlen (sts p))).
      { split; [intros q Q; apply K3; lia|]. intros r (e & G & X) _. exists e. split; [|exact X].
        rewrite K3; [exact G|]. apply zget_Some_inv in G. lia. }
      assert (AF : accepts (has p3) FinalState (cut [])) by constructor.
      assert (AE : isOptional d0 = true -> accepts (has p3) (zlen (sts p)) (cut [])).
      { intros O. rewrite Ed in *. cbn [isOptional orb] in O. inversion Wd as [| | | |? ? ? NL RO WL]; subst.
        eapply accepts_any; [|exact AF]. pose proof (group_any _ _ _ _ _ WL NL T1 LV H0 O) as (e & G & X). exists e. split; [|exact X].
        rewrite K3; [exact G|]. apply zget_Some_inv in G. lia. }
      destruct w as [|x w]; [apply AE, (chunk_empty _ _ DW)|].
      apply plus_accepts. rewrite <- (app_nil_r (x :: w)).
      apply (build_complete d0 Wd _ _ _ _ _ H0 T1 LV FU); [exact DW|discriminate|exact AF|exact AE].
    + eapply IH; [intros d' D'; apply W; right; exact D'|exact H1|exact T2|exact D|exact F|exact DW].
Qed.
End Complete.
