(** Rules of the first state of a definition: the symbols its strings begin with. *)
From Coq Require Import ZArith List Bool Lia Sorted.
From Verif Require Import Base BaseProofs Grammar LangBuild LangSpec LangProofs LangFrame LangComplete LangTotal LangDrop LangNodes LangNodesSpec LangNodesProofs.
Import ListNotations.
Open Scope Z_scope.

Section Heads.
Variable firsts : list (list Z).
(** the token and the node of a rule made of a first symbol *)
Definition ruleFor (x : sym) (r : rule) : Prop :=
  match x with
  | STok k => rToken r = k /\ rNode r = SameNode
  | SEoi => rToken r = EoiToken /\ rNode r = SameNode
  | SNode j _ => rNode r = j /\ In (rToken r) (firstsOf firsts j)
  end.
Definition lead (c : chunk) (r : rule) : Prop := exists x, heads c x /\ ruleFor x r.
Definition leadSeq (l : list chunk) (r : rule) : Prop := exists x, headsSeq l x /\ ruleFor x r.
Definition bypass (r : rule) : Prop := rToken r = AnyToken /\ rNode r = SameNode.
(** rules alike but for the state *)
Definition alike (r r' : rule) : Prop := rToken r = rToken r' /\ rNode r = rNode r'.
Lemma ruleFor_alike x r r' : alike r r' -> ruleFor x r -> ruleFor x r'.
Proof. intros (A & B). destruct x; cbn; rewrite A, B; auto. Qed.

(** rules for tokens are never lost *)
Definition grows (p p' : pres) : Prop := forall i r, has p i r -> 0 <= rToken r -> has p' i r.
Lemma addRule1_grows p i st nt k p' : okP p -> addRule1 p i st nt k = Some p' -> okP p' /\ grows p p'.
Proof.
  intros O H. destruct (addRule1_spec _ _ _ _ _ _ O H) as (L & F & O' & S). split; [exact O'|]. intros q r X P. destruct (Z.eq_dec q i) as [->|NE].
  - apply S. right. split; [exact X|lia].
  - apply (has_onlyAt _ _ _ _ _ F NE). exact X.
Qed.
Lemma copyRules_grows p i j p' : okP p -> copyRules p i j = Some p' -> okP p' /\ grows p p'.
Proof.
  intros O H. destruct (copyRules_spec _ _ _ _ O H) as (L & L' & F & O' & S). split; [exact O'|]. intros q r X P. destruct (Z.eq_dec q i) as [->|NE].
  - apply S. right. split; [exact X|lia].
  - apply (has_onlyAt _ _ _ _ _ F NE). exact X.
Qed.
Definition bothRel (p p' : pres) : Prop := okP p -> okP p' /\ grows p p'.
Lemma bothRel_refl p : bothRel p p.
Proof. intros O. split; [exact O|]. intros i r X _. exact X. Qed.
Lemma bothRel_trans p p' p'' : bothRel p p' -> bothRel p' p'' -> bothRel p p''.
Proof. intros A B O. destruct (A O) as (O1 & G1). destruct (B O1) as (O2 & G2). split; [exact O2|]. intros i r X P. apply G2; [apply G1|]; assumption. Qed.
Lemma addState_bothRel p i p' : addState p = (i, p') -> bothRel p p'.
Proof.
  intros A O. split; [eapply addState_ok, A; exact O|]. apply addState_spec in A. destruct A as (-> & Z & F & _). intros q r (e & G & X) _. exists e. split; [|exact X].
  rewrite F; [exact G|]. apply zget_Some_inv in G. lia.
Qed.
Lemma addRule_bothRel i st nt ks : forall p p', addRule p i st nt ks = Some p' -> bothRel p p'.
Proof.
  induction ks as [|k ks IH]; intros p p' H; cbn [addRule] in H; [injection H as <-; apply bothRel_refl|].
  ob H. eapply bothRel_trans; [intros O; eapply addRule1_grows; eassumption|eapply IH, H].
Qed.
Lemma build_bothRel c s n p p' : written c -> buildStates firsts c s n p = Some p' -> bothRel p p'.
Proof.
  intros W H. apply (build_rel firsts bothRel) with (c := c) (s := s) (n := n); auto.
  - apply bothRel_refl.
  - apply bothRel_trans.
  - apply addState_bothRel.
  - intros p0 i st nt k p1 _ A O. eapply addRule1_grows; eassumption.
  - intros p0 i j p1 A O. eapply copyRules_grows; eassumption.
Qed.
Lemma seq_bothRel l : (forall c, In c l -> written c) -> forall states tail p p', buildSeq firsts l states tail p = Some p' -> bothRel p p'.
Proof.
  induction l as [|c l IH]; intros W states tail p p' H; cbn [buildSeq] in H; [injection H as <-; apply bothRel_refl|].
  destruct states as [|s ss]; [discriminate|]. ob H. eapply bothRel_trans; [eapply build_bothRel; [apply W; left; reflexivity|exact H0]|eapply IH; [intros; apply W; right; assumption|exact H]].
Qed.
Lemma copyBack_bothRel l states p p' : copyBack l states p = Some p' -> bothRel p p'.
Proof.
  intros H. apply (rel_copyBack bothRel) with (l := l) (states := states); auto.
  - apply bothRel_refl.
  - apply bothRel_trans.
  - intros p0 i j p1 A O. eapply copyRules_grows; eassumption.
Qed.
Lemma has_same p p' q r : zget (sts p') q = zget (sts p) q -> (has p' q r <-> has p q r).
Proof. intros E. unfold has, hasRule. rewrite E. reflexivity. Qed.

(** *** The statement for a definition *)
Definition marks (c : chunk) (p p' : pres) (s : Z) : Prop :=
  (forall r, has p' s r -> has p s r \/ lead c r \/ bypass r) /\
  (forall r, lead c r -> 0 <= rToken r -> exists r', has p' s r' /\ alike r r').
Definition memberH (c : chunk) : Prop := forall s n p p', buildStates firsts c s n p = Some p' -> okP p -> live p s -> marks c p p' s.

Lemma addRule_marks i st nt ks : forall p p', okP p -> addRule p i st nt ks = Some p' ->
  (forall r, has p' i r -> has p i r \/ (In (rToken r) ks /\ rNode r = nt)) /\
  (forall k, In k ks -> 0 <= k -> has p' i (mkRule k st nt)).
Proof.
  induction ks as [|k ks IH]; intros p p' O H; cbn [addRule] in H.
  - injection H as <-. split; [auto|intros k []].
  - ob H. rename x into p1. destruct (addRule1_spec _ _ _ _ _ _ O H0) as (L & F & O1 & S). destruct (IH p1 p' O1 H) as (A & B). split.
    + intros r X. apply A in X. destruct X as [X|(X & N)]; [|right; split; [right; exact X|exact N]]. apply S in X. destruct X as [->|(X & _)]; [right; cbn; auto|auto].
    + intros k' [<-|K] P; [|apply B; assumption]. apply (proj2 (addRule_bothRel _ _ _ _ _ _ H O1)); [|exact P]. apply S. left. reflexivity.
Qed.
(** chunks of a group and their states *)
Fixpoint marksSeq (p p' : pres) (l : list chunk) (states : list Z) : Prop :=
  match l, states with
  | [], _ => True
  | c :: l', s :: ss => marks c p p' s /\ marksSeq p p' l' ss
  | _, [] => False
  end.
Lemma marksSeq_same p p' q q' : forall l states, (forall x, In x states -> zget (sts q) x = zget (sts p) x) -> (forall x, In x states -> zget (sts q') x = zget (sts p') x) ->
  marksSeq p p' l states -> marksSeq q q' l states.
Proof.
  induction l as [|c l IH]; intros states E E' M; [exact I|]. destruct states as [|s ss]; [contradiction|]. cbn [marksSeq] in *. destruct M as ((M1 & M2) & M3). split.
  - split.
    + intros r X. apply (has_same p' q' s r (E' s (or_introl eq_refl))) in X. destruct (M1 r X) as [Y|Y]; [|auto]. left. apply (has_same p q s r (E s (or_introl eq_refl))), Y.
    + intros r X P. destruct (M2 r X P) as (r' & Y & A). exists r'. split; [|exact A]. apply (has_same p' q' s r' (E' s (or_introl eq_refl))), Y.
  - apply IH; [intros; apply E; right; assumption|intros; apply E'; right; assumption|exact M3].
Qed.
Lemma seq_marks l : (forall c, In c l -> written c) -> (forall c, In c l -> memberH c) -> forall states tail p p', buildSeq firsts l states tail p = Some p' -> okP p ->
  (forall x, In x states -> live p x) -> NoDup states -> marksSeq p p' l states.
Proof.
  induction l as [|c l IH]; intros W M states tail p p' H O LV ND; [exact I|]. destruct states as [|s ss]; [discriminate H|]. cbn [buildSeq] in H. ob H. rename x into pm.
  inversion ND as [|? ? NS ND']; subst. pose proof (W c (or_introl eq_refl)) as Wc. pose proof (build_zlen _ _ _ _ _ _ Wc H0) as Z1.
  pose proof (build_keeps _ _ Wc _ _ _ _ H0 (LV s (or_introl eq_refl))) as K1. destruct (build_bothRel _ _ _ _ _ Wc H0 O) as (Om & _).
  assert (LVm : forall x, In x ss -> live pm x). { intros y Y. specialize (LV y (or_intror Y)). unfold live in *. lia. }
  destruct (seq_keeps _ _ (fun c' C => W c' (or_intror C)) ss tail pm p' H LVm) as (Z2 & F2).
  pose proof (IH (fun c' C => W c' (or_intror C)) (fun c' C => M c' (or_intror C)) ss tail pm p' H Om LVm ND') as MS.
  destruct (M c (or_introl eq_refl) s (hd tail ss) p pm H0 O (LV s (or_introl eq_refl))) as (M1 & M2). cbn [marksSeq].
  assert (ES : zget (sts p') s = zget (sts pm) s). { apply F2; [|exact NS]. specialize (LV s (or_introl eq_refl)). unfold live in LV. lia. }
  split.
  - split.
    + intros r X. apply (has_same pm p' s r ES) in X. apply M1, X.
    + intros r X P. destruct (M2 r X P) as (r' & Y & A). exists r'. split; [|exact A]. apply (has_same pm p' s r' ES), Y.
  - eapply marksSeq_same; [| |exact MS]; [|reflexivity]. intros x X. symmetry. apply K1; [specialize (LV x (or_intror X)); unfold live in LV; lia|]. intros ->. contradiction.
Qed.
Lemma marksSeq_step p p2 p3 : forall l states, (forall q r, has p3 q r -> has p2 q r \/ bypass r) -> grows p2 p3 -> marksSeq p p2 l states -> marksSeq p p3 l states.
Proof.
  induction l as [|c l IH]; intros states E G M; [exact I|]. destruct states as [|s ss]; [contradiction|]. cbn [marksSeq] in *. destruct M as ((M1 & M2) & M3). split; [|apply IH; assumption]. split.
  - intros r X. apply E in X. destruct X as [X|X]; [apply M1, X|auto].
  - intros r X P. destruct (M2 r X P) as (r' & Y & A). exists r'. split; [|exact A]. apply G; [exact Y|]. destruct A as (A & _). rewrite <- A. exact P.
Qed.
Lemma back_marks base : forall l states p p', copyBack l states p = Some p' -> okP p -> l <> [] -> length l = length states -> NoDup states -> marksSeq base p l states ->
  (forall r, has p' (hd 0 states) r -> (exists q, In q states /\ has base q r) \/ leadSeq l r \/ bypass r) /\
  (forall r, leadSeq l r -> 0 <= rToken r -> exists r', has p' (hd 0 states) r' /\ alike r r').
Proof.
  induction l as [|c l IH]; intros states p p' H O NE LEN ND M; [contradiction|]. destruct states as [|s ss]; [discriminate|]. cbn [marksSeq] in M. destruct M as ((M1 & M2) & M3). cbn [hd].
  destruct l as [|c' l].
  - cbn in H. injection H as <-. split.
    + intros r X. destruct (M1 r X) as [Y|[(x & HX & RX)|Y]]; [left; exists s; split; [left; reflexivity|exact Y]|right; left; exists x; split; [apply HS_here, HX|exact RX]|auto].
    + intros r (x & HX & RX) P. apply M2; [|exact P]. exists x. split; [|exact RX]. inversion HX as [? ? ? HH|? ? ? ? HH]; subst; [exact HH|inversion HH].
  - destruct ss as [|s' ss]; [discriminate|].
    change (copyBack (c :: c' :: l) (s :: s' :: ss) p) with (do p <- copyBack (c' :: l) (s' :: ss) p; if isOptional c then copyRules p s s' else Some p) in H.
    ob H. rename x into p1. inversion ND as [|? ? NS ND']; subst.
    destruct (IH (s' :: ss) p p1 H0 O ltac:(discriminate) ltac:(cbn in *; lia) ND' M3) as (I1 & I2). cbn [hd] in I1, I2.
    destruct (copyBack_keeps _ _ _ _ H0) as (Z1 & F1). destruct (copyBack_bothRel _ _ _ _ H0 O) as (O1 & _).
    assert (ES : zget (sts p1) s = zget (sts p) s). { apply F1. intros X. apply NS. apply removelast_In, X. }
    destruct (isOptional c) eqn:OC.
    + destruct (copyRules_spec _ _ _ _ O1 H) as (L & L' & F & O' & S). split.
      * intros r X. apply S in X. destruct X as [X|(X & _)].
        -- destruct (I1 r X) as [(q & Q & Y)|[(x & HX & RX)|Y]]; [left; exists q; split; [right; exact Q|exact Y]|right; left; exists x; split; [apply HS_later; assumption|exact RX]|auto].
        -- apply (has_same p p1 s r ES) in X. destruct (M1 r X) as [Y|[(x & HX & RX)|Y]]; [left; exists s; split; [left; reflexivity|exact Y]|right; left; exists x; split; [apply HS_here, HX|exact RX]|auto].
      * intros r (x & HX & RX) P. inversion HX as [? ? ? HH|? ? ? ? HH]; subst.
        -- destruct (M2 r (ex_intro _ x (conj HH RX)) P) as (r' & Y & A). exists r'. split; [|exact A]. apply S. right. split; [apply (has_same p p1 s r' ES), Y|]. destruct A as (A & _). lia.
        -- destruct (I2 r (ex_intro _ x (conj HH RX)) P) as (r' & Y & A). exists r'. split; [|exact A]. apply S. left. exact Y.
    + injection H as <-. split.
      * intros r X. apply (has_same p p1 s r ES) in X. destruct (M1 r X) as [Y|[(x & HX & RX)|Y]]; [left; exists s; split; [left; reflexivity|exact Y]|right; left; exists x; split; [apply HS_here, HX|exact RX]|auto].
      * intros r (x & HX & RX) P. inversion HX as [? ? ? HH|? ? ? OC' HH]; subst; [|congruence].
        destruct (M2 r (ex_intro _ x (conj HH RX)) P) as (r' & Y & A). exists r'. split; [|exact A]. apply (has_same p p1 s r' ES), Y.
Qed.
Theorem build_heads c : written c -> memberH c.
Proof.
  induction c as [t| |i|opt rep l IH|l IH] using chunk_nest; intros W s n p p' H O LV.
  - destruct (addRule_marks _ _ _ _ _ _ O H) as (A & B). split.
    + intros r X. destruct (A r X) as [Y|([Y|[]] & N)]; [auto|]. right. left. exists (STok t). split; [constructor|cbn; auto].
    + intros r (x & HX & RX) P. inversion HX; subst. destruct RX as (R1 & R2). exists (mkRule t n SameNode). split; [apply B; [left; reflexivity|lia]|split; assumption].
  - destruct (addRule_marks _ _ _ _ _ _ O H) as (A & B). split.
    + intros r X. destruct (A r X) as [Y|([Y|[]] & N)]; [auto|]. right. left. exists SEoi. split; [constructor|cbn; auto].
    + intros r (x & HX & RX) P. inversion HX; subst. destruct RX as (R1 & R2). rewrite R1 in P. unfold EoiToken in P. lia.
  - destruct (addRule_marks _ _ _ _ _ _ O H) as (A & B). split.
    + intros r X. destruct (A r X) as [Y|(Y & N)]; [auto|]. right. left. exists (SNode i 0). split; [constructor|cbn; auto].
    + intros r (x & HX & RX) P. inversion HX; subst. destruct RX as (R1 & R2). exists (mkRule (rToken r) n i). split; [apply B; assumption|split; [reflexivity|exact R1]].
  - inversion W as [| | | |? ? ? NE RO WL]; subst.
    destruct (group_parts _ _ _ _ _ _ _ _ LV H) as (first & rest & p1 & p2 & p3 & p4 & ls & G). destruct G as [gp_len0 gp_first0 gp_rest0 gp_nodup0 gp_zlen0 gp_old0 gp_new0 gp_seq0 gp_last0 gp_copy0 gp_extra0 gp_cells0].
    assert (LVS : forall x, In x (first :: rest) -> live p1 x).
    { intros x X. unfold live in *. destruct X as [<-|X]; [|specialize (gp_rest0 x X); pose proof (zlen_nonneg (sts p)); lia].
      destruct gp_first0 as [(-> & _)|(Q & _)]; pose proof (zlen_nonneg (sts p)); lia. }
    assert (O1 : okP p1) by (eapply grown_ok; eassumption).
    assert (M2 := seq_marks l WL (fun c C => IH c C (WL c C)) _ _ _ _ gp_seq0 O1 LVS gp_nodup0).
    destruct (seq_bothRel l WL _ _ _ _ gp_seq0 O1) as (O2 & G2). destruct gp_last0 as (lc & l0 & st0 & EL & ES & LEN & BP).
    assert (X3 : okP p3 /\ grows p2 p3 /\ forall q r, has p3 q r -> has p2 q r \/ bypass r).
    { destruct (isOptional lc); [|injection BP as <-; split; [exact O2|split; [intros i r X _; exact X|auto]]].
      destruct (addRule_bothRel _ _ _ _ _ _ BP O2) as (O3 & G3). split; [exact O3|]. split; [exact G3|]. intros q r X. destruct (addRule_one _ _ _ _ _ _ O2 BP) as (_ & F & _ & S).
      destruct (Z.eq_dec q ls) as [->|N]; [|left; apply (has_onlyAt _ _ _ _ _ F N), X]. apply S in X. destruct X as [->|(X & _)]; [right; split; reflexivity|auto]. }
    destruct X3 as (O3 & G3 & B3). pose proof (marksSeq_step p1 p2 p3 l _ B3 G3 M2) as M3.
    assert (LL : length l = length (first :: rest)). { rewrite EL, ES, !app_length. cbn. lia. }
    destruct (back_marks p1 l (first :: rest) p3 p4 gp_copy0 O3 NE LL gp_nodup0 M3) as (A & B). cbn [hd] in A, B.
    destruct (copyBack_bothRel _ _ _ _ gp_copy0 O3) as (O4 & G4).
    (* new states are empty at the beginning *)
    assert (NEWS : forall q r, In q (first :: rest) -> has p1 q r -> q = s /\ first = s /\ has p s r).
    { intros q r Q X. assert (OLD : zlen (sts p) <= q < zlen (sts p1) -> False). { intros Y. destruct X as (e & Ge & X). rewrite gp_new0 in Ge by exact Y. injection Ge as <-. destruct X. }
      destruct Q as [<-|Q]; [|destruct (OLD (gp_rest0 q Q))]. destruct gp_first0 as [(-> & _)|(Y & _)]; [|destruct (OLD Y)]. split; [reflexivity|]. split; [reflexivity|].
      apply (has_same p p1 s r); [apply gp_old0; unfold live in LV; lia|exact X]. }
    destruct (rep && (1 <? zlen l)) eqn:RP.
    + destruct gp_first0 as [(_ & Y)|(Q & _)]; [discriminate|].
      destruct (copyRules_spec _ _ _ _ O4 gp_extra0) as (L & L' & F & O' & S). split.
      * intros r X. apply S in X. destruct X as [X|(X & _)].
        -- destruct (A r X) as [(q & IQ & Y)|[(x & HX & RX)|Y]]; [left; apply (NEWS q r IQ Y)|right; left; exists x; split; [constructor; exact HX|exact RX]|auto].
        -- assert (NS : ~ In s (first :: rest)). { unfold live in LV. intros [Y|Y]; [lia|]. specialize (gp_rest0 s Y). lia. }
           destruct (copyBack_keeps _ _ _ _ gp_copy0) as (_ & F4). apply (has_same p3 p4 s r) in X; [|apply F4; intros Y; apply NS, removelast_In, Y].
           destruct (B3 _ _ X) as [Y|Y]; [|auto]. left.
           destruct (seq_keeps _ _ WL _ _ _ _ gp_seq0 LVS) as (_ & F2). apply (has_same p1 p2 s r) in Y; [|apply F2; [unfold live in LV; lia|exact NS]].
           apply (has_same p p1 s r); [apply gp_old0; unfold live in LV; lia|exact Y].
      * intros r (x & HX & RX) P. inversion HX; subst. match goal with Y : headsSeq _ x |- _ => destruct (B r (ex_intro _ x (conj Y RX)) P) as (r' & Z & AL) end.
        exists r'. split; [|exact AL]. apply S. left. exact Z.
    + injection gp_extra0 as <-. destruct gp_first0 as [(-> & _)|(_ & Y)]; [|discriminate]. split.
      * intros r X. destruct (A r X) as [(q & IQ & Y)|[(x & HX & RX)|Y]]; [left; apply (NEWS q r IQ Y)|right; left; exists x; split; [constructor; exact HX|exact RX]|auto].
      * intros r (x & HX & RX) P. inversion HX; subst. match goal with Y : headsSeq _ x |- _ => destruct (B r (ex_intro _ x (conj Y RX)) P) as (r' & Z & AL) end. exists r'. auto.
  - inversion W as [| | |? NE WL|]; subst. rewrite buildStates_var in H. clear W NE.
    assert (X : (forall r, has p' s r -> has p s r \/ (exists c, In c l /\ lead c r) \/ bypass r) /\ (forall r c, In c l -> lead c r -> 0 <= rToken r -> exists r', has p' s r' /\ alike r r')).
    { revert p H O LV. induction l as [|c l IL]; intros p H O LV; cbn [buildVar] in H.
      - injection H as <-. split; [auto|intros r c []].
      - ob H. rename x into pm. pose proof (WL c (or_introl eq_refl)) as Wc. pose proof (build_zlen _ _ _ _ _ _ Wc H0) as Z1.
        destruct (IH c (or_introl eq_refl) Wc _ _ _ _ H0 O LV) as (M1 & M2). destruct (build_bothRel _ _ _ _ _ Wc H0 O) as (Om & Gm).
        destruct (IL (fun c' C => IH c' (or_intror C)) (fun c' C => WL c' (or_intror C)) pm H Om) as (N1 & N2); [unfold live in *; lia|].
        assert (GR : grows pm p'). { rewrite <- (buildStates_var firsts l s n pm) in H. destruct l as [|c' l]; [cbn in H; injection H as <-; intros i r X _; exact X|].
          refine (proj2 (build_bothRel _ _ _ _ _ _ H Om)). constructor; [discriminate|]. intros c0 C. apply WL. right. exact C. }
        split.
        + intros r X. destruct (N1 r X) as [Y|[(c' & C & Y)|Y]]; [|right; left; exists c'; split; [right; exact C|exact Y]|auto].
          destruct (M1 r Y) as [Z|[Z|Z]]; [auto|right; left; exists c; split; [left; reflexivity|exact Z]|auto].
        + intros r c' [<-|C] LD P; [|eapply N2; eassumption]. destruct (M2 r LD P) as (r' & Y & A). exists r'. split; [|exact A]. apply GR; [exact Y|]. destruct A as (A & _). lia. }
    destruct X as (X1 & X2). split.
    + intros r Y. destruct (X1 r Y) as [Z|[(c & C & x & HX & RX)|Z]]; [auto|right; left; exists x; split; [econstructor; eassumption|exact RX]|auto].
    + intros r (x & HX & RX) P. inversion HX; subst. eapply X2; [eassumption|exists x; eauto|exact P].
Qed.
End Heads.
