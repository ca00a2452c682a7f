(** Where the rules of the tables come from; the tables of the grammar and the states they are made of. *)
From Coq Require Import ZArith List Bool Lia Sorted.
From Verif Require Import Base BaseProofs Grammar RulesSpec ParserSpec LangBuild LangSpec LangProofs LangFrame LangComplete LangTotal TablesSpec LangTables LangDrop LangShare LangFair.
Import ListNotations.
Open Scope Z_scope.

(** rules made of a definition: token and node *)
Inductive uses (firsts : list (list Z)) : chunk -> Z -> Z -> Prop :=
| U_tok t : uses firsts (CTok t) t SameNode
| U_eoi : uses firsts CEoi EoiToken SameNode
| U_node i t : In t (firstsOf firsts i) -> uses firsts (CNode i) t i
| U_var l c t n : In c l -> uses firsts c t n -> uses firsts (CVar l) t n
| U_group opt rep l c t n : In c l -> uses firsts c t n -> uses firsts (CGroup opt rep l) t n.

Section Uses.
Variable firsts : list (list Z).
(** [P token node]: rules that may occur *)
Variable P : Z -> Z -> Prop.
Hypothesis PA : P AnyToken SameNode.
Definition within (p : pres) : Prop := forall i r, has p i r -> P (rToken r) (rNode r).
Lemma addRule_within i st nt ks : forall p p', okP p -> within p -> addRule p i st nt ks = Some p' -> (forall k, In k ks -> P k nt) -> okP p' /\ within p'.
Proof.
  induction ks as [|k ks IH]; intros p p' O S H K; cbn [addRule] in H.
  - injection H as <-. auto.
  - ob H. rename x into p1. destruct (addRule1_spec _ _ _ _ _ _ O H0) as (L & F & O1 & HAS). apply (IH p1 p' O1); [|exact H|intros x X; apply K; right; exact X].
    intros q r X. destruct (Z.eq_dec q i) as [->|NE]; [|apply (S q), (has_onlyAt _ _ _ _ _ F NE), X].
    apply HAS in X. destruct X as [->|(X & _)]; [cbn; apply K; left; reflexivity|apply (S i r X)].
Qed.
Lemma copyRules_within p i j p' : okP p -> within p -> copyRules p i j = Some p' -> okP p' /\ within p'.
Proof.
  intros O S H. destruct (copyRules_spec _ _ _ _ O H) as (L & L' & F & O1 & HAS). split; [exact O1|].
  intros q r X. destruct (Z.eq_dec q i) as [->|NE]; [|apply (S q), (has_onlyAt _ _ _ _ _ F NE), X].
  apply HAS in X. destruct X as [X|(X & _)]; eapply S, X.
Qed.
Lemma grown_within p p1 : within p -> (forall q, q < zlen (sts p) -> zget (sts p1) q = zget (sts p) q) ->
  (forall q, zlen (sts p) <= q < zlen (sts p1) -> zget (sts p1) q = Some (mkEntry 0 [] [])) -> within p1.
Proof.
  intros S A B q r (e & G & Y). pose proof (zget_Some_inv _ _ _ G) as Q. destruct (Z.lt_ge_cases q (zlen (sts p))) as [LT|GE].
  - rewrite A in G by exact LT. apply (S q). exists e. auto.
  - rewrite B in G by lia. injection G as <-. destruct Y.
Qed.
Lemma build_within c : written c -> (forall t n, uses firsts c t n -> P t n) -> forall s n p p', buildStates firsts c s n p = Some p' -> okP p -> within p -> live p s -> okP p' /\ within p'.
Proof.
  induction c as [t| |i|opt rep l IH|l IH] using chunk_nest; intros W U s n p p' H O S LV.
  - eapply addRule_within; [exact O|exact S|exact H|]. intros k [<-|[]]. apply U. constructor.
  - eapply addRule_within; [exact O|exact S|exact H|]. intros k [<-|[]]. apply U. constructor.
  - eapply addRule_within; [exact O|exact S|exact H|]. intros k K. apply U. constructor. exact K.
  - inversion W as [| | | |? ? ? NE RO WL]; subst.
    destruct (group_parts _ _ _ _ _ _ _ _ LV H) as (first & rest & p1 & p2 & p3 & p4 & ls & G). destruct G as [gp_len0 gp_first0 gp_rest0 gp_nodup0 gp_zlen0 gp_old0 gp_new0 gp_seq0 gp_last0 gp_copy0 gp_extra0 gp_cells0].
    assert (LVS : forall x, In x (first :: rest) -> live p1 x).
    { intros x X. unfold live in *. destruct X as [<-|X]; [|specialize (gp_rest0 x X); pose proof (zlen_nonneg (sts p)); lia].
      destruct gp_first0 as [(-> & _)|(Q & _)]; pose proof (zlen_nonneg (sts p)); lia. }
    assert (S1 : within p1) by (eapply grown_within; eassumption). assert (O1 : okP p1) by (eapply grown_ok; eassumption).
    assert (X2 : okP p2 /\ within p2).
    { assert (U' : forall c, In c l -> forall t n, uses firsts c t n -> P t n) by (intros c C t n0 X; apply U; econstructor; eassumption).
      revert WL IH U' gp_seq0 O1 S1 LVS. generalize (if rep then s else n) as tail. generalize (first :: rest) as states. clear. revert p1.
      induction l as [|c l IL]; intros p1 states tail WL IH U' H O1 S1 LVS.
      - cbn in H. injection H as <-. auto.
      - destruct states as [|s ss]; [discriminate H|]. cbn [buildSeq] in H. ob H. rename x into pm.
        pose proof (WL c (or_introl eq_refl)) as Wc. pose proof (build_zlen _ _ _ _ _ _ Wc H0) as Z1.
        destruct (IH c (or_introl eq_refl) Wc (U' c (or_introl eq_refl)) _ _ _ _ H0 O1 S1 (LVS s (or_introl eq_refl))) as (O2 & S2).
        apply (IL pm ss tail (fun c' C => WL c' (or_intror C)) (fun c' C => IH c' (or_intror C)) (fun c' C => U' c' (or_intror C)) H O2 S2).
        intros x X. specialize (LVS x (or_intror X)). unfold live in *. lia. }
    destruct X2 as (O2 & S2). destruct gp_last0 as (lc & l0 & st0 & EL & ES & LEN & BP).
    assert (X3 : okP p3 /\ within p3).
    { destruct (isOptional lc); [|injection BP as <-; auto]. eapply addRule_within; [exact O2|exact S2|exact BP|]. intros k [<-|[]]. exact PA. }
    destruct X3 as (O3 & S3).
    assert (X4 : okP p4 /\ within p4).
    { revert O3 S3. assert (R : okP p3 /\ within p3 -> okP p4 /\ within p4); [|auto].
      apply (rel_copyBack (fun p p' => okP p /\ within p -> okP p' /\ within p')) with (l := l) (states := first :: rest); auto.
      intros p0 i j p5 A (A1 & A2). eapply copyRules_within; eassumption. }
    destruct X4 as (O4 & S4). destruct (rep && (1 <? zlen l)); [eapply copyRules_within; eassumption|injection gp_extra0 as <-; auto].
  - inversion W as [| | |? NE WL|]; subst. rewrite buildStates_var in H.
    assert (U' : forall c, In c l -> forall t n, uses firsts c t n -> P t n) by (intros c C t n0 X; apply U; econstructor; eassumption).
    clear W NE U. revert p H O S LV. induction l as [|c l IL]; intros p H O S LV; cbn [buildVar] in H.
    + injection H as <-. auto.
    + ob H. rename x into pm. pose proof (WL c (or_introl eq_refl)) as Wc. pose proof (build_zlen _ _ _ _ _ _ Wc H0) as Z1.
      destruct (IH c (or_introl eq_refl) Wc (U' c (or_introl eq_refl)) _ _ _ _ H0 O S LV) as (O2 & S2).
      apply (IL (fun c' C => IH c' (or_intror C)) (fun c' C => WL c' (or_intror C)) (fun c' C => U' c' (or_intror C)) pm H O2 S2). unfold live in *. lia.
Qed.
Lemma nodes_within defs : (forall d, In d defs -> written d /\ forall t n, uses firsts d t n -> P t n) -> forall p fs p', buildNodes firsts defs p = Some (fs, p') -> okP p -> within p -> okP p' /\ within p'.
Proof.
  induction defs as [|d ds IH]; intros W p fs p' H O S; cbn [buildNodes] in H.
  - injection H as <- <-. auto.
  - destruct (addState p) as (first, p1) eqn:A. ob H. rename x into p2. ob H. destruct x as (fs', p3). injection H as <- <-.
    assert (O1 : okP p1) by (eapply addState_ok, A; exact O).
    apply addState_spec in A. destruct A as (-> & A2 & A3 & A4 & A5). pose proof (zlen_nonneg (sts p)) as ZN.
    assert (S1 : within p1). { apply (grown_within p p1 S). { intros q Q. apply A3. lia. } { intros q Q. replace q with (zlen (sts p)) by lia. exact A4. } }
    destruct (W d (or_introl eq_refl)) as (Wd & Ud).
    destruct (build_within d Wd Ud _ _ _ _ H0 O1 S1) as (O2 & S2); [unfold live; lia|].
    apply (IH (fun d' D => W d' (or_intror D)) _ _ _ H1 O2 S2).
Qed.
End Uses.

(** ** Types of tokens do not matter *)
Definition retyped (es es0 : list entry) : Prop := Forall2 (fun e e0 => ePos e = ePos e0 /\ eNeg e = eNeg e0) es es0.
Lemma retyped_zget es es0 i e : retyped es es0 -> zget es i = Some e -> exists e0, zget es0 i = Some e0 /\ ePos e = ePos e0 /\ eNeg e = eNeg e0.
Proof.
  unfold zget. destruct (i <? 0); [discriminate|]. intros R. generalize (Z.to_nat i) as n. induction R as [|x y l l' E R IH]; intros [|n] G; try discriminate; [injection G as <-; cbn; eauto|]. apply IH, G.
Qed.
Lemma retyped_zget' es es0 i e0 : retyped es es0 -> zget es0 i = Some e0 -> exists e, zget es i = Some e /\ ePos e = ePos e0 /\ eNeg e = eNeg e0.
Proof.
  unfold zget. destruct (i <? 0); [discriminate|]. intros R. generalize (Z.to_nat i) as n. induction R as [|x y l l' E R IH]; intros [|n] G; try discriminate; [injection G as <-; cbn; eauto|]. apply IH, G.
Qed.
Lemma retyped_all e e0 : ePos e = ePos e0 -> eNeg e = eNeg e0 -> allRules e = allRules e0.
Proof. intros A B. unfold allRules. rewrite A, B. reflexivity. Qed.
Lemma retyped_has es es0 i r : retyped es es0 -> (hasRule es i r <-> hasRule es0 i r).
Proof.
  intros R. split; intros (e & G & X).
  - destruct (retyped_zget _ _ _ _ R G) as (e0 & G0 & A & B). exists e0. split; [exact G0|]. rewrite <- (retyped_all _ _ A B). exact X.
  - destruct (retyped_zget' _ _ _ _ R G) as (e0 & G0 & A & B). exists e0. split; [exact G0|]. rewrite (retyped_all _ _ A B). exact X.
Qed.
Lemma retyped_len es es0 : retyped es es0 -> zlen es = zlen es0.
Proof. intros R. unfold zlen. f_equal. induction R; cbn; auto. Qed.
Lemma entryOk_same e e0 : ePos e = ePos e0 -> eNeg e = eNeg e0 -> entryOk e0 -> entryOk e.
Proof. intros A B [O1 O2 O3 O4]. split; rewrite ?A, ?B; assumption. Qed.

(** what is needed for dropping *)
Lemma built_ready firsts defs fs p es : (forall d, In d defs -> written d) -> buildNodes firsts defs (mkPres [] 0) = Some (fs, p) -> retyped es (prStates p) ->
  (forall e, In e es -> entryOk e) /\ cellsFair es /\ (forall f, In f fs -> 0 <= f < zlen es) /\ (forall e r, In e es -> In r (allRules e) -> FinalState <= rState r < zlen es).
Proof.
  intros W H R. destruct (nodes_fair firsts defs W _ _ _ H empty_fair) as ([O FR CO RG] & _ & NF).
  assert (X : forall e, In e es -> exists i e0, zget es i = Some e /\ zget (sts p) i = Some e0 /\ ePos e = ePos e0 /\ eNeg e = eNeg e0).
  { intros e E. apply In_zget in E. destruct E as (i & G). destruct (retyped_zget _ _ _ _ R G) as (e0 & G0 & A & B). eauto 6. }
  pose proof (retyped_len _ _ R) as ZL. split; [|split; [|split]].
  - intros e E. destruct (X e E) as (i & e0 & _ & G0 & A & B). eapply entryOk_same; [exact A|exact B|]. eapply O, G0.
  - intros e e' k k' id r r' E E' Y Y'. destruct (X e E) as (i & e0 & _ & G0 & _ & B). destruct (X e' E') as (i' & e0' & _ & G0' & _ & B'). rewrite B in Y. rewrite B' in Y'.
    exact (CO _ _ _ _ _ _ _ (zget_In _ _ _ G0) (zget_In _ _ _ G0') Y Y').
  - intros f F. rewrite ZL. apply NF, F.
  - intros e r E Y. destruct (X e E) as (i & e0 & _ & G0 & A & B). rewrite (retyped_all _ _ A B) in Y. rewrite ZL. apply (RG i r). exists e0. auto.
Qed.

(** ** The grammar written *)
Lemma ruleOf_iff tokens layers nodes es sts rules multi i r : written_ es sts rules multi -> (forall e, In e es -> entryOk e) ->
  (ruleOf (mkGrammar tokens layers nodes sts multi rules) i r <-> hasRule es i r).
Proof.
  intros [L F B MB RU MU SR] OK. set (g := mkGrammar tokens layers nodes sts multi rules). split.
  - intros (st & rs & ms & l & G & S1 & S2 & HR & I). cbn [gStates gRules gMultiRules g] in *.
    destruct (zget_same sts es i st L G) as (e & Ge). destruct (F i e st Ge G) as (_ & rs0 & ms0 & FT). rewrite (sf_rules _ _ _ _ _ _ FT) in S1. injection S1 as <-. rewrite (sf_multi _ _ _ _ _ _ FT) in S2. injection S2 as <-.
    exists e. split; [exact Ge|]. apply (entryRules_all e (OK e (zget_In _ _ _ Ge))). inversion HR as [r0 R0 T|m rs' M T SL]; subst.
    + destruct I as [->|[]]. destruct (sf_one _ _ _ _ _ _ FT r R0) as (K & X). rewrite X. split; [exact K|left; reflexivity].
    + destruct (sf_many _ _ _ _ _ _ FT m M) as (K & _ & X). unfold g in SL. cbn [gRules] in SL. rewrite X in SL. injection SL as <-. rewrite T in K, I. auto.
  - intros (e & Ge & X). apply (entryRules_all e (OK e (zget_In _ _ _ Ge))) in X. destruct X as (K & X).
    destruct (zget_same es sts i e (eq_sym L) Ge) as (st & G). destruct (F i e st Ge G) as (_ & rs & ms & FT).
    destruct (sf_all _ _ _ _ _ _ FT _ K) as [(r0 & R0 & T)|(m & M & T)].
    + destruct (sf_one _ _ _ _ _ _ FT r0 R0) as (_ & Y). rewrite T in Y. rewrite Y in X. destruct X as [->|[]].
      exists st, rs, ms, [r]. split; [exact G|]. split; [apply FT|]. split; [apply FT|]. split; [constructor; auto|left; reflexivity].
    + destruct (sf_many _ _ _ _ _ _ FT m M) as (_ & _ & Y). rewrite T in Y.
      exists st, rs, ms, (entryRules e (rToken r)). split; [exact G|]. split; [apply FT|]. split; [apply FT|]. split; [econstructor 2; eauto|exact X].
Qed.
Lemma stateSound_of tokens layers nodes es sts rules multi st : written_ es sts rules multi -> (forall e, In e es -> entryOk e) -> In st sts ->
  stateSound (mkGrammar tokens layers nodes sts multi rules) st.
Proof.
  intros [L F B MB RU MU SR] OK I. apply In_zget in I. destruct I as (i & G). destruct (zget_same sts es i st L G) as (e & Ge). destruct (F i e st Ge G) as (_ & rs & ms & FT).
  pose proof (OK e (zget_In _ _ _ Ge)) as OKe. split.
  - exact (B i st G).
  - exists rs, ms. cbn [gRules gMultiRules]. split; [apply FT|]. split; [apply FT|]. split; [apply FT|]. split; [apply FT|]. split.
    + intros r m R M E. destruct (sf_one _ _ _ _ _ _ FT r R) as (_ & X). destruct (sf_many _ _ _ _ _ _ FT m M) as (_ & Y & _). rewrite <- E, X in Y. cbn in Y. lia.
    + intros m M. destruct (sf_many _ _ _ _ _ _ FT m M) as (K & Y & Z). exists (entryRules e (mToken m)). split; [exact Z|]. split; [exact Y|]. apply (entryRules_key e OKe _ K).
Qed.
