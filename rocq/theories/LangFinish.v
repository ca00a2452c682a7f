(** States made for definitions can be finished: the final state can be reached from each of them. *)
From Coq Require Import ZArith List Bool Lia.
From Verif Require Import Base BaseProofs Grammar LangBuild LangSpec LangProofs LangFrame LangComplete.
Import ListNotations.
Open Scope Z_scope.

Section F.
Variable firsts : list (list Z).
Hypothesis TF : tokensFirst firsts.
Notation starts := (starts firsts).
Notation chain := (chain firsts).

Definition alive (pf : pres) (q : Z) : Prop := exists v, accepts (has pf) q (cut v).
(** nodes of a definition begin with something *)
Definition begun (c : chunk) : Prop := forall i, mentions c i -> exists t, starts i t.
Lemma begun_string c : written c -> begun c -> exists w, derives starts c w.
Proof.
  induction c as [t| |i|opt rep l IH|l IH] using chunk_nest; intros W B.
  - exists [STok t]. constructor.
  - exists [SEoi]. constructor.
  - destruct (B i (M_node i)) as (t & T). exists [SNode i t]. constructor. exact T.
  - inversion W as [| | | |? ? ? NE RO WL]; subst. assert (X : exists w, derivesSeq starts l w).
    { assert (BL : forall c, In c l -> begun c) by (intros c C i M; apply B; econstructor; eassumption). clear W NE B. induction l as [|c l IL]; [exists []; constructor|].
      destruct (IH c (or_introl eq_refl) (WL c (or_introl eq_refl)) (BL c (or_introl eq_refl))) as (w & D).
      destruct IL as (v & DV); [intros; apply IH; [right|..]; assumption|intros; apply WL; right; assumption|intros; apply BL; right; assumption|]. exists (w ++ v). constructor; assumption. }
    destruct X as (w & X). exists w. apply D_once, X.
  - inversion W as [| | |? NE WL|]; subst. destruct l as [|c l]; [contradiction|]. destruct (IH c (or_introl eq_refl)) as (w & D); [apply WL; left; reflexivity|intros i M; apply B; econstructor; [left; reflexivity|exact M]|].
    exists w. eapply D_variant; [left; reflexivity|exact D].
Qed.
Lemma begun_strings l : (forall c, In c l -> exists w, derives starts c w) -> exists w, derivesSeq starts l w.
Proof.
  induction l as [|c l IL]; intros H; [exists []; constructor|]. destruct (H c (or_introl eq_refl)) as (w & D). destruct IL as (v & DV); [intros; apply H; right; assumption|]. exists (w ++ v). constructor; assumption.
Qed.
Lemma chain_states pf tail l states v : chain pf tail l states -> accepts (has pf) tail (cut v) -> (forall c, In c l -> exists w, derives starts c w) ->
  forall q, In q (tl states) -> alive pf q.
Proof.
  induction 1 as [c s T|c s c' l s' ss T I B CH IH]; intros A D q Q; cbn [tl] in Q; [destruct Q|]. destruct Q as [<-|Q].
  - destruct (begun_strings (c' :: l)) as (w & DW); [intros; apply D; right; assumption|].
    destruct (chain_complete _ _ _ _ _ CH w v DW A) as (_ & X); [intros FO; eapply accepts_any; [apply B, FO|exact A]|]. exists (w ++ v). exact X.
  - apply IH; [exact A|intros; apply D; right; assumption|exact Q].
Qed.

Definition memberA (c : chunk) : Prop := forall s n p p' pf, buildStates firsts c s n p = Some p' -> tidy p -> live p s -> future p p' pf s ->
  alive pf n -> alive pf s -> forall q, zlen (sts p) <= q < zlen (sts p') -> alive pf q.
Lemma seq_news l : (forall c, In c l -> written c) -> (forall c, In c l -> memberA c) -> forall states tail p p' pf,
  buildSeq firsts l states tail p = Some p' -> tidy p -> (forall x, In x states -> live p x) ->
  (forall q, zlen (sts p) <= q < zlen (sts p') -> zget (sts pf) q = zget (sts p') q) ->
  (forall s, In s states -> forall r, has p' s r -> rToken r <> AnyToken -> has pf s r) ->
  alive pf tail -> (forall s, In s states -> alive pf s) -> forall q, zlen (sts p) <= q < zlen (sts p') -> alive pf q.
Proof.
  induction l as [|c l IH]; intros W M states tail p p' pf H T LV FR PL AT AS q Q.
  { cbn in H. injection H as <-. lia. }
  destruct states as [|s ss]; [discriminate H|]. cbn [buildSeq] in H. ob H. rename x into pm.
  pose proof (W c (or_introl eq_refl)) as Wc.
  pose proof (build_zlen _ _ _ _ _ _ Wc H0) as Z1. destruct (build_tidy _ _ _ _ _ _ TF Wc H0 T) as (T1 & M1).
  assert (LV' : forall x, In x ss -> live pm x). { intros y Y. specialize (LV y (or_intror Y)). unfold live in *. lia. }
  destruct (seq_keeps firsts _ (fun c' C => W c' (or_intror C)) _ _ _ _ H LV') as (Z2 & F2).
  destruct (seq_tidy firsts TF _ (fun c' C => W c' (or_intror C)) _ _ _ _ H T1) as (T2 & M2).
  destruct (Z.lt_ge_cases q (zlen (sts pm))) as [LT|GE].
  - eapply (M c (or_introl eq_refl)); [exact H0|exact T|apply LV; left; reflexivity| | | |lia].
    + split.
      * intros x X. rewrite FR by lia. apply F2; [lia|]. intros C. specialize (LV x (or_intror C)). unfold live in LV. lia.
      * intros r X N. apply PL; [left; reflexivity| |exact N]. apply M2; assumption.
    + destruct ss as [|s' ss]; [exact AT|apply AS; right; left; reflexivity].
    + apply AS. left. reflexivity.
  - eapply IH; [intros c' C; apply W; right; exact C|intros c' C; apply M; right; exact C|exact H|exact T1|exact LV'| | |exact AT| |lia].
    + intros x X. apply FR. lia.
    + intros x X. apply PL. right. exact X.
    + intros x X. apply AS. right. exact X.
Qed.

Theorem build_alive c : written c -> begun c -> memberA c.
Proof.
  induction c as [t| |i|opt rep l IH|l IH] using chunk_nest; intros W B s n p p' pf H T LV FU AN AS q Q.
  - cbn [buildStates] in H. apply addRule_keeps in H. exfalso. revert Q. pose proof (proj1 H). lia.
  - cbn [buildStates] in H. apply addRule_keeps in H. exfalso. revert Q. pose proof (proj1 H). lia.
  - cbn [buildStates] in H. apply addRule_keeps in H. exfalso. revert Q. pose proof (proj1 H). lia.
  - inversion W as [| | | |? ? ? NL RO WL]; subst.
    destruct (group_parts_all _ _ _ _ _ _ _ _ LV H) as (first & rest & p1 & p2 & p3 & p4 & ls & G & ALL).
    assert (BL : forall c, In c l -> begun c) by (intros c C i M; apply B; econstructor; eassumption).
    destruct (group_chain firsts TF opt rep l s n p p' first rest p1 p2 p3 p4 ls pf WL (fun c C => build_complete firsts TF c (WL c C)) NL RO T LV G FU) as (CH & ANY & IN).
    assert (AT : alive pf (if rep then s else n)) by (destruct rep; assumption).
    assert (DS : forall c, In c l -> exists w, derives starts c w) by (intros c C; apply begun_string; auto).
    assert (AF : alive pf first).
    { destruct (Z.eq_dec first s) as [->|NE]; [exact AS|]. destruct AT as (v & A). destruct (begun_strings l DS) as (w & D).
      destruct (chain_complete _ _ _ _ _ CH w v D A) as (_ & X); [intros FO; eapply accepts_any; [apply ANY; assumption|exact A]|]. exists (w ++ v). exact X. }
    assert (AR : forall x, In x (first :: rest) -> alive pf x).
    { intros x [<-|X]; [exact AF|]. destruct AT as (v & A). apply (chain_states _ _ _ _ v CH A DS x X). }
    destruct (Z.lt_ge_cases q (zlen (sts p1))) as [LT|GE]; [apply AR, ALL; lia|].
    destruct G as [gp_len0 gp_first0 gp_rest0 gp_nodup0 gp_zlen0 gp_old0 gp_new0 gp_seq0 gp_last0 gp_copy0 gp_extra0 gp_cells0]. destruct FU as (FU & PL).
    assert (LVS : forall x, In x (first :: rest) -> live p1 x).
    { intros x X. unfold live in *. destruct X as [<-|X]; [|specialize (gp_rest0 x X); pose proof (zlen_nonneg (sts p)); lia].
      destruct gp_first0 as [(-> & _)|(Y & _)]; pose proof (zlen_nonneg (sts p)); lia. }
    assert (T1 : tidy p1). { apply (tidy_grown p); [exact T| |exact gp_old0|exact gp_new0]. eapply grown_ok; [apply T|exact gp_old0|exact gp_new0]. }
    destruct (seq_tidy firsts TF _ WL _ _ _ _ gp_seq0 T1) as (T2 & M12).
    destruct (seq_keeps firsts _ WL _ _ _ _ gp_seq0 LVS) as (Z12 & K12).
    destruct gp_last0 as (lc & l0 & st0 & EL & ES & LEN & BP).
    assert (LSI : In ls (first :: rest)). { rewrite ES. apply in_app_iff. right. left. reflexivity. }
    assert (T3 : tidy p3 /\ more p2 p3 /\ zlen (sts p3) = zlen (sts p2) /\ (forall q, q <> ls -> zget (sts p3) q = zget (sts p2) q)).
    { destruct (isOptional lc).
      - unfold bypassRule in BP. assert (OK : forall k, In k [AnyToken] -> okRule firsts (if rep then s else n) SameNode k) by (intros k [<-|[]]; right; right; left; auto).
        destruct (addRule_tidy firsts TF _ _ _ _ _ _ OK BP T2) as (A & B0).
        destruct (addRule_one _ _ _ _ _ _ (td_ok _ T2) BP) as (_ & (Z & F) & _ & S). auto.
      - injection BP as <-. split; [exact T2|]. split; [intros i r X _; exact X|]. split; reflexivity. }
    destruct T3 as (T3 & M23 & Z23 & F23).
    destruct (copyBack_tidy _ _ _ _ gp_copy0 T3) as (T4 & M34).
    destruct (copyBack_keeps _ _ _ _ gp_copy0) as (Z34 & K34).
    assert (E5 : (forall q, q <> s -> zget (sts p') q = zget (sts p4) q) /\ zlen (sts p') = zlen (sts p4) /\ more p4 p').
    { destruct gp_first0 as [(-> & NX)|(FN & NX)]; rewrite NX in gp_extra0.
      - injection gp_extra0 as <-. split; [reflexivity|]. split; [reflexivity|]. intros i r X _; exact X.
      - destruct (copyRules_tidy _ _ _ _ gp_extra0 T4) as (_ & M45). destruct (copyRules_spec _ _ _ _ (td_ok _ T4) gp_extra0) as (_ & _ & (Z & F) & _ & S). auto. }
    destruct E5 as (F5 & Z5 & M5).
    assert (NEW : forall q, zlen (sts p) <= q < zlen (sts p4) -> zget (sts pf) q = zget (sts p4) q).
    { intros x X. rewrite FU by lia. apply F5. unfold live in LV. lia. }
    eapply (seq_news l WL (fun c C => IH c C (WL c C) (BL c C))); [exact gp_seq0|exact T1|exact LVS| | |exact AT|exact AR|lia].
    + intros x X. rewrite NEW by lia.
      assert (NI : ~ In x (first :: rest)). { intros C. specialize (LVS x C). unfold live in LVS. lia. }
      rewrite K34 by (intros C; apply NI, removelast_In, C). apply F23. intros ->. contradiction.
    + intros x X r Y N. assert (Y4 : has p4 x r). { apply M34; [apply M23; assumption|exact N]. }
      destruct (Z.eq_dec x s) as [->|NE]; [apply PL; [apply M5; assumption|exact N]|].
      assert (RX : zlen (sts p) <= x < zlen (sts p4)). { destruct X as [<-|X]; [destruct gp_first0 as [(Y0 & _)|(Y0 & _)]; [contradiction|lia]|specialize (gp_rest0 x X); lia]. }
      unfold has, hasRule in Y4 |- *. rewrite NEW by exact RX. exact Y4.
  - inversion W as [| | |? NL WL|]; subst. rewrite buildStates_var in H.
    assert (BL : forall c, In c l -> begun c) by (intros c C i M; apply B; econstructor; eassumption).
    clear W NL B. revert p H T LV FU q Q. induction l as [|c0 l IL]; intros p H T LV FU q Q; cbn [buildVar] in H; [injection H as <-; lia|]. ob H. rename x into pm.
    pose proof (build_zlen _ _ _ _ _ _ (WL c0 (or_introl eq_refl)) H0) as Z1. destruct (build_tidy _ _ _ _ _ _ TF (WL c0 (or_introl eq_refl)) H0 T) as (T1 & _).
    assert (LV' : live pm s) by (unfold live in *; lia).
    assert (Z2 : zlen (sts pm) <= zlen (sts p') /\ keeps pm p' s /\ more pm p').
    { clear - H LV' WL T1 TF. assert (WL' : forall c, In c l -> written c) by (intros; apply WL; right; assumption). clear WL. revert pm H LV' T1.
      induction l as [|c l IL]; intros pm H LV T1; cbn [buildVar] in H.
      - injection H as <-. split; [lia|]. split; [intros q _ _; reflexivity|intros i r X _; exact X].
      - ob H. pose proof (build_zlen _ _ _ _ _ _ (WL' c (or_introl eq_refl)) H0) as Z1.
        pose proof (build_keeps _ _ (WL' c (or_introl eq_refl)) _ _ _ _ H0 LV) as K1.
        destruct (build_tidy _ _ _ _ _ _ TF (WL' c (or_introl eq_refl)) H0 T1) as (T2 & M1).
        destruct (IL (fun c0 C => WL' c0 (or_intror C)) x H) as (Z2 & K2 & M2); [unfold live in *; lia|exact T2|].
        split; [lia|]. split; [|eapply more_trans; eassumption]. intros q Q N. rewrite K2 by (auto; lia). apply K1; auto. }
    destruct Z2 as (Z2 & K2 & M2). destruct FU as (F1 & F2).
    destruct (Z.lt_ge_cases q (zlen (sts pm))) as [LT|GE].
    + eapply (IH c0 (or_introl eq_refl) (WL c0 (or_introl eq_refl)) (BL c0 (or_introl eq_refl))); [exact H0|exact T|exact LV| |exact AN|exact AS|lia]. split.
      * intros x X. rewrite F1 by lia. apply K2; [lia|]. unfold live in LV. lia.
      * intros r X N. apply F2; [|exact N]. apply M2; assumption.
    + eapply (IL (fun c1 C1 => IH c1 (or_intror C1)) (fun c1 C1 => WL c1 (or_intror C1)) (fun c1 C1 => BL c1 (or_intror C1)) pm H T1 LV'); [|lia]. split; [|exact F2].
      intros x X. apply F1. lia.
Qed.

Lemma nodes_news ds : (forall d, In d ds -> written d /\ begun d) -> forall p fs p' pf, buildNodes firsts ds p = Some (fs, p') -> tidy p ->
  (forall q, zlen (sts p) <= q < zlen (sts p') -> zget (sts pf) q = zget (sts p') q) -> (forall f, In f fs -> alive pf f) ->
  forall q, zlen (sts p) <= q < zlen (sts p') -> alive pf q.
Proof.
  induction ds as [|d ds IH]; intros W p fs p' pf H T FR AF q Q; cbn [buildNodes] in H; [injection H as _ <-; lia|].
  destruct (addState p) as (f, p1) eqn:A. ob H. rename x into p2. ob H. destruct x as (fs', p3). injection H as <- <-.
  destruct (addState_tidy _ _ _ A T) as (T1 & _). apply addState_spec in A. destruct A as (-> & A2 & A3 & A4 & _).
  destruct (W d (or_introl eq_refl)) as (Wd & Bd).
  assert (LV : live p1 (zlen (sts p))) by (unfold live; pose proof (zlen_nonneg (sts p)); lia).
  destruct (build_tidy _ _ _ _ _ _ TF Wd H0 T1) as (T2 & _). pose proof (build_zlen _ _ _ _ _ _ Wd H0) as Z1.
  destruct (buildNodes_keeps firsts TF ds (fun d' D => proj1 (W d' (or_intror D))) _ _ _ H1 T2) as (_ & _ & Z3 & K3).
  assert (SF : forall x, zlen (sts p) <= x < zlen (sts p2) -> zget (sts pf) x = zget (sts p2) x). { intros x X. rewrite FR by lia. apply K3. lia. }
  destruct (Z.lt_ge_cases q (zlen (sts p2))) as [LT|GE].
  - destruct (Z.eq_dec q (zlen (sts p))) as [->|NE]; [apply AF; left; reflexivity|].
    eapply (build_alive d Wd Bd); [exact H0|exact T1|exact LV| | | |lia].
    + split; [intros x X; apply SF; lia|]. intros r X _. unfold has, hasRule in *. rewrite SF by lia. exact X.
    + exists []. constructor.
    + apply AF. left. reflexivity.
  - eapply (IH (fun d' D => W d' (or_intror D)) p2); [exact H1|exact T2| | |lia].
    + intros x X. apply FR. lia.
    + intros x X. apply AF. right. exact X.
Qed.
End F.
