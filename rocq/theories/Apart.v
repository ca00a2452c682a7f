(** Proofs: the lookahead overwrites no branch when conflicts stand apart. *)
From Coq Require Import ZArith List Bool Lia Arith Permutation.
From Verif Require Import Base BaseProofs Grammar Rules RulesSpec Prop_Rules Parser ParserSpec ParserProofs ParserInv ParserStream ParserLook LookLongest VariantSpec Variant StarSpec Star ApartSpec.
Import ListNotations.
Open Scope Z_scope.

(** Lists that differ somewhere, whatever is added to them *)
Definition fork {A} (a b : list A) : Prop := exists p x y u v, a = p ++ x :: u /\ b = p ++ y :: v /\ x <> y.
Lemma fork_sym {A} (a b : list A) : fork a b -> fork b a.
Proof. intros (p & x & y & u & v & -> & -> & NE). exists p, y, x, v, u. auto. Qed.
Lemma fork_ext {A} (a b s : list A) : fork a b -> fork (a ++ s) b.
Proof. intros (p & x & y & u & v & -> & -> & NE). exists p, x, y, (u ++ s), v. rewrite <- app_assoc. auto. Qed.
Lemma fork_neq {A} (a b : list A) : fork a b -> a <> b.
Proof. intros (p & x & y & u & v & -> & -> & NE) H. apply app_inv_head in H. congruence. Qed.

Section P.
Context {Tok Src W E Inst R : Type}.
Variable c : config Tok Src W E Inst R.
Notation g := (cGrammar c).
Notation pstate := (pstate Tok Src W E Inst R).
Notation res := (res Tok Src W E Inst R).
Notation nodeRec := (nodeRec Tok Inst).
Notation branch := (branch Tok Inst).
Notation look := (Parser.look (Tok:=Tok) (Inst:=Inst)).
Notation step := (ParserLook.step c).
Notation brun := (ParserLook.brun c).
Notation findRules := (findRules (cType c) (cText c) (cUpper c) g).
Notation variant := (variant (cType c) (cText c) (cUpper c) g).
Hypothesis TO : tablesOk g.
Hypothesis ON : once c.

Lemma find_conflict t i st r1 r2 rs : zget (gStates g) i = Some st -> findRules t st = Some (r1 :: r2 :: rs) -> conflict c t i.
Proof.
  intros ES EF. destruct (proj2 TO _ _ ES) as (rules & multi & SO & SM). unfold Rules.findRules in EF. destruct (isSideToken (cType c) g t) eqn:SD.
  - destruct t as [t|]; discriminate.
  - assert (NS : ~ isSide (cType c) g t) by (intros H; apply isSideToken_spec in H; congruence). clear SD.
    destruct (possibleRuleKeys (cType c) (cText c) (cUpper c) g t) as [keys|] eqn:EK; [|discriminate].
    assert (RG : forall tok, t = Some tok -> cType c tok < 0 \/ exists d, zget (gTokens g) (cType c tok) = Some d).
    { intros tok ->. cbn [possibleRuleKeys] in EK. destruct (Z.leb_spec 0 (cType c tok)); [|left; auto]. right. destruct (zget (gTokens g) (cType c tok)); [eauto|discriminate]. }
    assert (K : keysOf (cType c) (cText c) (cUpper c) g t keys).
    { destruct (keys_spec (cType c) (cText c) (cUpper c) g t RG) as (keys' & E1 & K). rewrite EK in E1. injection E1 as <-. auto. }
    cbn [obind] in EF. pose proof (so_rules _ _ _ _ SO) as E1. pose proof (so_multi _ _ _ _ SO) as E2. rewrite E1, E2 in EF. cbn [obind] in EF.
    destruct (findByKeys_spec g st rules multi SO keys) as (rs' & E3 & SEL). rewrite E3 in EF. injection EF as ->.
    eapply Conflict; [exact NS| |exact ES|exact E1|exact E2|exact K|exact SEL|cbn; lia].
    intros tok ET. destruct (RG tok ET) as [X|(d & X)]; [pose proof (zlen_nonneg (gTokens g)); lia|]. apply zget_Some_inv in X. lia.
Qed.
Lemma find_once t i st l : zget (gStates g) i = Some st -> findRules t st = Some l -> NoDup l.
Proof.
  intros ES EF. destruct (proj2 TO _ _ ES) as (rules & multi & SO & SM). unfold Rules.findRules in EF. destruct (isSideToken (cType c) g t) eqn:SD.
  - destruct t as [t|]; injection EF as <-; repeat constructor; auto.
  - destruct (possibleRuleKeys (cType c) (cText c) (cUpper c) g t) as [keys|] eqn:EK; [|discriminate].
    cbn [obind] in EF. pose proof (so_rules _ _ _ _ SO) as E1. pose proof (so_multi _ _ _ _ SO) as E2. rewrite E1, E2 in EF. cbn [obind] in EF.
    destruct (findByKeys_spec g st rules multi SO keys) as (rs' & E3 & SEL). rewrite E3 in EF. injection EF as ->.
    clear EK E3. induction SEL as [|key ks rs HR|key ks rs _ _ IH]; [constructor| |exact IH].
    destruct HR as [r _ _|m rs HM _ HS]; [repeat constructor; auto|]. eapply ON; [|exact HS]. eapply zslice_In; eauto.
Qed.

(** ** Branches differ *)
Definition live (todo : list (nat * rule)) (ids : list nat) (store : list branch) (b : nat) (e : list rule) : Prop :=
  (exists r br, In (b, r) todo /\ nth_error store b = Some br /\ e = bRules br ++ [r]) \/
  exists br, In b ids /\ nth_error store b = Some br /\ e = bRules br.
Definition differ (todo : list (nat * rule)) (ids : list nat) (store : list branch) : Prop :=
  forall b1 b2 e1 e2, live todo ids store b1 e1 -> live todo ids store b2 e2 -> b1 <> b2 -> fork e1 e2.
Definition all (rest : list nat) (k : look) : list nat := rest ++ kQueue k ++ kNext k.
Definition DV (todo : list (nat * rule)) (rest : list nat) (k : look) : Prop := differ todo (all rest k) (kStore k).

Variable t : option Tok.
Lemma DV_apply todo rest b r k k' : ~ In b (map fst todo ++ all rest k) -> DV ((b, r) :: todo) rest k -> lookApply c t b r k = Some k' -> DV todo rest k'.
Proof.
  intros NI HD H. unfold lookApply in H. destruct (nth_error (kStore k) b) as [br|] eqn:EB; [|discriminate]. cbn [obind] in H.
  destruct (dryRule c t r (bStack br)) as [[cons ls']|]; [|discriminate]. cbn [obind] in H.
  assert (LT : (b < length (kStore k))%nat) by (apply nth_error_Some; congruence).
  set (br' := mkBranch ls' (bRules br ++ [r])) in *.
  assert (HL : forall b' e, live todo (b :: all rest k) (upd (kStore k) b br') b' e -> live ((b, r) :: todo) (all rest k) (kStore k) b' e).
  { intros b' e [(r' & br2 & I1 & I2 & ->)|(br2 & I1 & I2 & ->)].
    - assert (b' <> b) by (intros ->; apply NI, in_or_app; left; apply (in_map fst) in I1; exact I1).
      rewrite nth_error_upd in I2 by exact LT. destruct (Nat.eqb_spec b' b) as [->|_]; [congruence|]. left. exists r', br2. split; [right; exact I1|auto].
    - destruct (Nat.eq_dec b' b) as [->|NE].
      + rewrite nth_error_upd, Nat.eqb_refl in I2 by exact LT. injection I2 as <-. left. exists r, br. split; [left; reflexivity|auto].
      + rewrite nth_error_upd in I2 by exact LT. destruct (Nat.eqb_spec b' b) as [->|_]; [congruence|]. right. exists br2. destruct I1 as [->|I1]; [congruence|auto]. }
  assert (HS : (kStore k' = upd (kStore k) b br') /\ forall x, In x (all rest k') -> In x (b :: all rest k)).
  { unfold all. destruct (match ls' with [] => true | _ => false end || cons); [destruct cons|]; injection H as <-; cbn [kStore kQueue kNext]; (split; [reflexivity|]); intros x; rewrite ?in_app_iff; cbn [In]; rewrite ?in_app_iff; cbn [In]; tauto. }
  destruct HS as [ES HS]. intros b1 b2 e1 e2 L1 L2 NE. rewrite ES in *.
  assert (UP : forall b' e, live todo (all rest k') (upd (kStore k) b br') b' e -> live todo (b :: all rest k) (upd (kStore k) b br') b' e).
  { intros b' e [X|(br2 & I1 & X)]; [left; exact X|right; exists br2; split; [apply HS, I1|exact X]]. }
  eapply HD; [apply HL, UP, L1|apply HL, UP, L2|exact NE].
Qed.
Lemma apply_ids b r k k' rest : lookApply c t b r k = Some k' -> forall x, In x (all rest k') -> x = b \/ In x (all rest k).
Proof.
  intros H. unfold lookApply in H. destruct (nth_error (kStore k) b) as [br|] eqn:EB; [|discriminate]. cbn [obind] in H.
  destruct (dryRule c t r (bStack br)) as [[cons ls']|]; [|discriminate]. cbn [obind] in H. unfold all.
  destruct (match ls' with [] => true | _ => false end || cons); [destruct cons|]; injection H as <-; cbn [kStore kQueue kNext]; intros x; rewrite ?in_app_iff; cbn [In]; intuition.
Qed.
Lemma DV_split rest : forall todo k k', NoDup (map fst todo) -> (forall x, In x (map fst todo) -> ~ In x (all rest k)) -> DV todo rest k ->
  lookSplit c t (map fst todo) (map snd todo) k = Some k' -> DV [] rest k'.
Proof.
  induction todo as [|[b r] todo IH]; intros k k' ND DJ HD H; [injection H as <-; exact HD|]. cbn [map fst snd lookSplit] in *.
  destruct (lookApply c t b r k) as [k1|] eqn:E1; [|discriminate]. cbn [obind] in H. inversion ND as [|? ? NI ND2]; subst.
  eapply (IH k1); [exact ND2| | |exact H].
  - intros x HX HA. apply (apply_ids _ _ _ _ _ E1) in HA as [->|HA]; [contradiction|]. exact (DJ x (or_intror HX) HA).
  - eapply DV_apply; [|exact HD|exact E1]. intros X. apply in_app_or in X as [X|X]; [contradiction|]. exact (DJ b (or_introl eq_refl) X).
Qed.
Lemma differ_sub (todo : list (nat * rule)) ids ids' (store : list branch) : (forall x, In x ids' -> In x ids) -> differ todo ids store -> differ todo ids' store.
Proof.
  intros HS HD b1 b2 e1 e2 L1 L2. apply HD.
  - destruct L1 as [X|(br & I1 & X)]; [left; exact X|right; exists br; auto].
  - destruct L2 as [X|(br & I1 & X)]; [left; exact X|right; exists br; auto].
Qed.
Lemma combine_fun {A B} : forall (a : list A) (l : list B) x y z, NoDup a -> In (x, y) (combine a l) -> In (x, z) (combine a l) -> y = z.
Proof.
  induction a as [|u a IH]; intros [|v l] x y z ND H1 H2; try contradiction. inversion ND as [|? ? NI ND2]; subst. cbn in H1, H2.
  destruct H1 as [H1|H1], H2 as [H2|H2]; [congruence| | |eauto].
  - injection H1 as -> ->. apply in_combine_l in H2. contradiction.
  - injection H2 as -> ->. apply in_combine_l in H1. contradiction.
Qed.
Lemma combine_inj {A B} : forall (a : list A) (l : list B) x1 x2 y, NoDup l -> In (x1, y) (combine a l) -> In (x2, y) (combine a l) -> x1 = x2.
Proof.
  induction a as [|u a IH]; intros [|v l] x1 x2 y ND H1 H2; try contradiction. inversion ND as [|? ? NI ND2]; subst. cbn in H1, H2.
  destruct H1 as [H1|H1], H2 as [H2|H2]; [congruence| | |eauto].
  - injection H1 as -> ->. apply in_combine_r in H2. contradiction.
  - injection H2 as -> ->. apply in_combine_r in H1. contradiction.
Qed.

Variable s0 : list nodeRec.
Variable T : list (option Tok).
Lemma DV_branch rest : forall fuel k k', KI c s0 T t rest k -> DV [] rest k -> lookBranch c fuel t k = Some (Some k') -> DV [] rest k'.
Proof.
  induction fuel as [|f IH]; intros k k' HK HD H; cbn [lookBranch] in H; [discriminate|].
  destruct (kQueue k) as [|b q] eqn:EQ; [injection H as <-; auto|].
  pose proof (KI_pop c s0 T t b q rest k HK EQ) as HK1. cbn [kStore kNext kQueue kSuccess kError] in H.
  destruct (nth_error (kStore k) b) as [br|] eqn:EB; [|discriminate].
  assert (HD1 : differ [] (b :: rest ++ q ++ kNext k) (kStore k)).
  { eapply differ_sub; [|exact HD]. intros x. unfold all. rewrite EQ. cbn [In app]. rewrite !in_app_iff. cbn [In app]. rewrite in_app_iff. tauto. }
  assert (HD2 : differ [] (rest ++ q ++ kNext k) (kStore k)) by (eapply differ_sub; [|exact HD1]; intros x X; right; exact X).
  destruct (bStack br) as [|n ls] eqn:EN.
  - eapply IH; [| |exact H]; [apply (KI_ext c s0 _ _ _ _ (Some b) (kError k)) in HK1; apply KI_drop in HK1; exact HK1|exact HD2].
  - destruct (zget (gStates g) (nState n)) as [st|] eqn:ES; [|discriminate]. cbn [obind] in H.
    destruct (findRules t st) as [rs|] eqn:EF; [|discriminate]. pose proof (find_once _ _ _ _ ES EF) as NDR. destruct rs as [|r0 rs].
    + eapply IH; [| |exact H]; [apply (KI_ext c s0 _ _ _ _ (kSuccess k) (Some b)) in HK1; apply KI_drop in HK1; exact HK1|exact HD2].
    + remember (r0 :: rs) as l eqn:El.
      match type of H with match lookSplit c t ?ids l ?k0 with _ => _ end = _ => set (kk := k0) in *; set (idl := ids) in * end.
      destruct (lookSplit c t idl l kk) as [k1|] eqn:E1; [|discriminate].
      assert (LEN : length idl = length l) by (unfold idl; cbn; rewrite seq_length, El; cbn; lia).
      assert (IDS : forall x, In x idl -> nth_error (kStore kk) x = Some br).
      { intros x HX. unfold kk. cbn [kStore]. destruct HX as [<-|HX].
        - rewrite nth_error_app1; auto. apply nth_error_Some. congruence.
        - apply in_seq in HX. rewrite nth_error_app2 by lia. apply nth_error_repeat. lia. }
      assert (HKK : KI c s0 T t (idl ++ rest) kk) by (apply (KI_copies c s0 T t b q rest k br l HK1 EB)).
      pose proof (ki_nodup _ _ _ _ _ _ HKK) as ND. rewrite <- app_assoc in ND. change (rest ++ kQueue kk ++ kNext kk) with (all rest kk) in ND.
      assert (DJ : forall x, In x idl -> ~ In x (all rest kk)).
      { clear - ND. revert ND. generalize idl (all rest kk). intros a m. induction a as [|y a IHa]; intros ND x HX; [destruct HX|]. cbn in ND. inversion ND as [|? ? NI ND2]; subst.
        destruct HX as [<-|HX]; [intros X; apply NI, in_or_app; right; exact X|exact (IHa ND2 x HX)]. }
      assert (NDI : NoDup idl).
      { clear - ND. revert ND. generalize idl (all rest kk). intros a m. induction a as [|y a IHa]; intros ND; [constructor|]. cbn in ND. inversion ND as [|? ? NI ND2]; subst.
        constructor; [intros X; apply NI, in_or_app; left; exact X|exact (IHa ND2)]. }
      eapply IH; [| |exact H]; [eapply (lookSplit_ok c s0 T t br n ls st l EN ES EF idl l rest kk k1); auto|].
      apply (DV_split rest (combine idl l) kk k1); rewrite ?map_fst_combine, ?map_snd_combine by exact LEN; [exact NDI|exact DJ| |exact E1].
      assert (OLD : forall x e, live [] (rest ++ q ++ kNext k) (kStore kk) x e -> live [] (b :: rest ++ q ++ kNext k) (kStore k) x e /\ In x (all rest kk)).
      { intros x e [(r & br2 & [] & _)|(br2 & I1 & I2 & ->)]. split; [|exact I1]. right. exists br2. split; [right; exact I1|]. split; [|reflexivity].
        pose proof HK1 as [_ A2 A3 _]. cbn [kStore kNext kQueue] in A2, A3. rewrite Forall_forall in A2, A3.
        assert (LT : (x < length (kStore k))%nat).
        { rewrite app_assoc in I1. apply in_app_or in I1 as [I1|I1]; [eapply branchAt_lt, (A2 x (or_intror I1))|eapply branchAt_lt, (A3 x I1)]. }
        unfold kk in I2. cbn [kStore] in I2. rewrite nth_error_app1 in I2 by exact LT. exact I2. }
      assert (HB : live [] (b :: rest ++ q ++ kNext k) (kStore k) b (bRules br)) by (right; exists br; split; [left; reflexivity|auto]).
      assert (MIX : forall x1 e1 x2 e2, In x1 idl -> (exists r, e1 = bRules br ++ [r]) -> live [] (rest ++ q ++ kNext k) (kStore kk) x2 e2 -> fork e1 e2).
      { intros x1 e1 x2 e2 I1 (r & ->) L2. destruct (OLD _ _ L2) as [L3 I3]. apply fork_ext. apply (HD1 b x2); [exact HB|exact L3|]. intros <-. apply (DJ b); [left; reflexivity|exact I3]. }
      intros b1 b2 e1 e2 [(r1 & br1 & I1 & I2 & ->)|L1] [(r2 & br2 & J1 & J2 & ->)|L2] NE.
      * rewrite IDS in I2 by (apply in_combine_l in I1; exact I1). rewrite IDS in J2 by (apply in_combine_l in J1; exact J1). injection I2 as <-. injection J2 as <-.
        exists (bRules br), r1, r2, [], []. split; [reflexivity|]. split; [reflexivity|]. intros ->. apply NE. eapply combine_inj; [exact NDR|exact I1|exact J1].
      * pose proof (in_combine_l _ _ _ _ I1) as IL. rewrite IDS in I2 by exact IL. injection I2 as <-. apply (MIX b1 _ b2); [exact IL|eauto|right; exact L2].
      * pose proof (in_combine_l _ _ _ _ J1) as IL. rewrite IDS in J2 by exact IL. injection J2 as <-. apply fork_sym. apply (MIX b2 _ b1); [exact IL|eauto|right; exact L1].
      * destruct (OLD b1 e1 (or_intror L1)) as [X1 _], (OLD b2 e2 (or_intror L2)) as [X2 _]. exact (HD1 _ _ _ _ X1 X2 NE).
Qed.

Lemma DV_round fuel : forall branches i k lost k', KI c s0 T t branches k -> kQueue k = [] -> DV [] branches k ->
  lookRound c fuel t i branches k lost = Some (Some (k', false)) -> DV [] [] k'.
Proof.
  induction branches as [|b r IH]; intros i k lost k' HK HQ HC H; cbn [lookRound] in H; [injection H as <- ->; auto|].
  destruct (nth_error (kNext k) i) as [b'|].
  - destruct (lookBranch c fuel t _) as [[k1|]|]; try discriminate. apply lookRound_lost in H; [discriminate|auto].
  - destruct (lookBranch c fuel t _) as [[k1|]|] eqn:EL; try discriminate.
    assert (HK2 : KI c s0 T t r (mkLook (kStore k) (kNext k) [b] (kSuccess k) (kError k))).
    { destruct HK as [A1 A2 A3 A4]. rewrite HQ in *. constructor; cbn [kStore kNext kQueue]; auto.
      * apply Forall_app. rewrite app_nil_r in A2. split; [exact (Forall_inv_tail A2)|]. constructor; auto. exact (Forall_inv A2).
      * eapply Permutation_NoDup; [|exact A4]. cbn [app]. apply Permutation_middle. }
    destruct (lookBranch_ok c s0 T t r fuel _ _ HK2 EL) as [A B]. eapply IH; [exact A|exact B| |exact H].
    eapply (DV_branch r fuel); [exact HK2| |exact EL]. unfold DV, all. cbn [kStore kQueue kNext]. eapply differ_sub; [|exact HC].
    unfold all. rewrite HQ. intros x. cbn [app In]. rewrite !in_app_iff. cbn [In]. tauto.
Qed.

(** ** Rounds without conflicts *)
Definition calm (rs : list rule) : Prop := forall x n ls, brun s0 T (rs ++ x) (n :: ls) [t] -> ~ conflict c t (nState n).
Lemma calm_branch b rs : calm rs -> forall fuel k k' br x, nth_error (kStore k) b = Some br -> bRules br = rs ++ x -> (kQueue k = [] \/ kQueue k = [b] /\ brun s0 T (bRules br) (bStack br) [t]) ->
  lookBranch c fuel t k = Some (Some k') -> (length (kNext k') <= length (kNext k) + length (kQueue k))%nat /\ (forall b', b' <> b -> nth_error (kStore k') b' = nth_error (kStore k) b') /\
  (forall z, In z (kNext k') -> In z (kNext k) \/ z = b) /\ exists br' y, nth_error (kStore k') b = Some br' /\ bRules br' = rs ++ y.
Proof.
  intros HC. induction fuel as [|f IH]; intros k k' br x EB EX HQ H; cbn [lookBranch] in H; [discriminate|].
  destruct HQ as [EQ|(EQ & BR)]; rewrite EQ in H; [injection H as <-; split; [lia|]; split; [auto|]; split; [auto|eauto]|]. cbn [kStore kNext kQueue kSuccess kError] in H. rewrite EB in H.
  rewrite EQ. cbn [length].
  destruct (bStack br) as [|n ls] eqn:EN.
  - eapply IH in H; [|exact EB|exact EX|left; reflexivity]. cbn [kStore kNext kQueue length] in H. destruct H as (H1 & H2). split; [lia|exact H2].
  - destruct (zget (gStates g) (nState n)) as [st|] eqn:ES; [|discriminate]. cbn [obind] in H.
    destruct (findRules t st) as [l|] eqn:EF; [|discriminate]. destruct l as [|r0 [|r1 l]].
    + eapply IH in H; [|exact EB|exact EX|left; reflexivity]. cbn [kStore kNext kQueue length] in H. destruct H as [H1 H2]. split; [lia|exact H2].
    + cbn [length Nat.sub seq repeat lookSplit] in H. rewrite app_nil_r in H. unfold lookApply in H. cbn [kStore kNext kQueue kSuccess kError] in H. rewrite EB in H. cbn [obind] in H. rewrite EN in H.
      destruct (dryRule c t r0 (n :: ls)) as [[used ls']|] eqn:ED; [|discriminate]. cbn [obind app] in H.
      assert (LT : (b < length (kStore k))%nat) by (apply nth_error_Some; congruence).
      set (br' := mkBranch ls' (bRules br ++ [r0])) in *.
      assert (OTH : forall b', b' <> b -> nth_error (upd (kStore k) b br') b' = nth_error (kStore k) b').
      { intros b' NE. rewrite nth_error_upd; auto. destruct (Nat.eqb_spec b' b); congruence. }
      assert (NB : nth_error (upd (kStore k) b br') b = Some br') by (rewrite nth_error_upd, Nat.eqb_refl by exact LT; reflexivity).
      assert (EX' : bRules br' = rs ++ (x ++ [r0])) by (cbn [br' bRules]; rewrite EX, app_assoc; reflexivity).
      destruct used; [rewrite orb_true_r in H|rewrite orb_false_r in H; destruct ls' as [|n' ls']]; (eapply IH in H; [|exact NB|exact EX'|]; [|try (left; reflexivity)]).
      * cbn [kStore kNext kQueue length] in H. rewrite app_length in H. cbn [length] in H. destruct H as (H1 & H2 & H3 & H4). split; [lia|]. split; [intros b' NE; rewrite H2 by exact NE; apply OTH, NE|]. split; [|exact H4].
        intros z Z. apply H3 in Z as [Z|Z]; [|auto]. apply in_app_or in Z as [Z|[Z|[]]]; auto.
      * cbn [kStore kNext kQueue length] in H. destruct H as (H1 & H2 & H3 & H4). split; [lia|]. split; [intros b' NE; rewrite H2 by exact NE; apply OTH, NE|]. auto.
      * cbn [kStore kNext kQueue length] in H. destruct H as (H1 & H2 & H3 & H4). split; [lia|]. split; [intros b' NE; rewrite H2 by exact NE; apply OTH, NE|]. auto.
      * right. cbn [kQueue kStore]. split; [reflexivity|]. cbn [br' bRules bStack]. eapply B_snoc; [exact BR|]. apply (ST c n ls t [] r0 st [r0] false (n' :: ls') ES EF (or_introl eq_refl) ED).
    + exfalso. eapply (HC x n ls); [rewrite <- EX; exact BR|]. eapply find_conflict; eauto.
Qed.
Lemma calm_round fuel : forall branches i k lost k' lost', NoDup branches -> (forall b, In b branches -> exists br, nth_error (kStore k) b = Some br /\ brun s0 T (bRules br) (bStack br) [t] /\ calm (bRules br)) ->
  (length (kNext k) <= i)%nat -> lookRound c fuel t i branches k lost = Some (Some (k', lost')) ->
  lost' = lost /\ (forall z, In z (kNext k') -> In z (kNext k) \/ In z branches) /\
  forall z br', nth_error (kStore k') z = Some br' -> exists br y, nth_error (kStore k) z = Some br /\ bRules br' = bRules br ++ y.
Proof.
  induction branches as [|b r IH]; intros i k lost k' lost' ND HB LE H; cbn [lookRound] in H.
  - injection H as <- <-. split; [reflexivity|]. split; [auto|]. intros z br' Z. exists br', []. rewrite app_nil_r. auto.
  - inversion ND as [|? ? NI ND2]; subst.
    replace (nth_error (kNext k) i) with (@None nat) in H by (symmetry; apply nth_error_None; exact LE).
    destruct (lookBranch c fuel t _) as [[k1|]|] eqn:EL; try discriminate.
    destruct (HB b (or_introl eq_refl)) as (br & EB & BR & CB).
    match type of EL with lookBranch _ _ _ ?kk = _ => destruct (calm_branch b (bRules br) CB fuel kk k1 br []) as (L1 & O1 & N1 & br1 & y1 & B1 & Y1); [exact EB|rewrite app_nil_r; reflexivity|right; auto|exact EL|] end.
    cbn [kStore kNext kQueue length] in L1, O1, N1.
    apply IH in H; [|exact ND2| |lia].
    + destruct H as (-> & H2 & H3). split; [reflexivity|]. split.
      * intros z Z. apply H2 in Z as [Z|Z]; [|right; right; exact Z]. apply N1 in Z as [Z| ->]; [left; exact Z|right; left; reflexivity].
      * intros z br' Z. destruct (H3 z br' Z) as (br2 & y2 & Z2 & ->). destruct (Nat.eq_dec z b) as [->|NE].
        -- rewrite B1 in Z2. injection Z2 as <-. exists br, (y1 ++ y2). rewrite Y1, app_assoc. auto.
        -- rewrite O1 in Z2 by exact NE. exists br2, y2. auto.
    + intros b' I'. destruct (HB b' (or_intror I')) as (br2 & X). exists br2. rewrite O1 by (intros ->; contradiction). exact X.
Qed.
End P.

Section Q.
Context {Tok Src W E Inst R : Type}.
Variable c : config Tok Src W E Inst R.
Notation g := (cGrammar c).
Notation pstate := (pstate Tok Src W E Inst R).
Notation res := (res Tok Src W E Inst R).
Notation nodeRec := (nodeRec Tok Inst).
Notation branch := (branch Tok Inst).
Notation look := (Parser.look (Tok:=Tok) (Inst:=Inst)).
Notation brun := (ParserLook.brun c).
Notation findRules := (findRules (cType c) (cText c) (cUpper c) g).
Hypothesis TO : tablesOk g.
Hypothesis ON : once c.
Hypothesis AP : apart c.

Lemma full_variant n ts rs ls : brun [n] ts rs ls [] -> VariantSpec.variant (cType c) (cText c) (cUpper c) g (pr n) ts rs (length ts) (map pr ls).
Proof.
  intros B. destruct (variant_run c TO n ts rs ls [] B) as (k & V & ER & LK). symmetry in ER. apply skip_all in ER; [|exact LK]. subst. exact V.
Qed.
(** two ways to take [t0] have taken [t0 :: ts]: the first one meets no conflict with [t] *)
Lemma apart_calm n t0 ts t p1 k1 q1 l1 p2 k2 q2 l2 : conflict c t0 (nState n) -> brun [n] [t0] p1 k1 [] -> brun [n] [t0] p2 k2 [] -> p1 <> p2 ->
  brun [n] (t0 :: ts) (p1 ++ q1) l1 [] -> brun [n] (t0 :: ts) (p2 ++ q2) l2 [] ->
  calm c t [n] ((t0 :: ts) ++ [t]) (p1 ++ q1).
Proof.
  intros CF P1 P2 NE B1 B2 x m ls B. destruct (variant_run c TO n _ _ _ _ B) as (k & V & ER & LK).
  assert (EK : k = length (t0 :: ts)).
  { apply (f_equal (@length _)) in ER. rewrite skipn_length, app_length in ER. rewrite app_length in LK. cbn [length] in *. lia. }
  subst k. cbn [map] in V. eapply (AP (nIndex n) (nState n) t0 ts t p1 p2 q1 q2 (map pr k1) (map pr k2) (map pr l1) (map pr l2) x (nIndex m) (nState m) (map pr ls)); auto.
  - apply (full_variant n [t0] p1 k1 P1).
  - apply (full_variant n [t0] p2 k2 P2).
  - apply full_variant, B1.
  - apply full_variant, B2.
Qed.
(** branches are different from the first token on *)
Definition firsts (n : nodeRec) (t0 : option Tok) (k : look) : Prop :=
  forall b1 b2 br1 br2, In b1 (kNext k) -> In b2 (kNext k) -> b1 <> b2 -> nth_error (kStore k) b1 = Some br1 -> nth_error (kStore k) b2 = Some br2 ->
  exists p1 q1 k1 p2 q2 k2, bRules br1 = p1 ++ q1 /\ bRules br2 = p2 ++ q2 /\ brun [n] [t0] p1 k1 [] /\ brun [n] [t0] p2 k2 [] /\ p1 <> p2.
Definition stay {A} (s : pstate) (m : res A) : Prop := match m with Done _ s' | Fail _ s' | NoFuel s' => pLost s = false -> pLost s' = false | Panic => True end.
Lemma stay_same {A} s (m : res A) : sameLost s m -> stay s m.
Proof. destruct m; cbn; congruence. Qed.
Lemma stay_bind {A B} (s : pstate) (m : res A) (k : A -> pstate -> res B) : stay s m -> (forall a s', stay s' (k a s')) -> stay s (bind m k).
Proof. intros H1 H2. destruct m as [a s'|e s'| |s']; cbn in *; auto. specialize (H2 a s'). destruct (k a s'); cbn in *; auto. Qed.

Lemma look_stays n : forall fuel t tokens k s,
  (tokens = [] /\ kNext k = [0%nat] \/ exists t0 ts, tokens = t0 :: ts /\ conflict c t0 (nState n) /\ KI c [n] tokens (last tokens None) [] k /\ kQueue k = [] /\ firsts n t0 k /\ (2 <= length (kNext k))%nat) ->
  (tokens = [] -> conflict c t (nState n) /\ KI c [n] [t] t [0%nat] (mkLook (kStore k) [] [] None (kError k)) /\ DV [] [0%nat] (mkLook (kStore k) [] [] None (kError k))) ->
  stay s (lookLoop c fuel t tokens k s).
Proof.
  induction fuel as [|f IH]; intros t tokens k s HT H0; cbn [lookLoop]; [cbn; auto|].
  destruct (lookRound c (S f) t 0 (kNext k) _ (pLost s)) as [[[k1 lost]|]|] eqn:ER; [|exact I|cbn; auto].
  assert (RD : exists t0 ts, tokens ++ [t] = t0 :: ts /\ conflict c t0 (nState n) /\ KI c [n] (tokens ++ [t]) t (kNext k) (mkLook (kStore k) [] [] None (kError k)) /\ lost = pLost s /\ (pLost s = false -> firsts n t0 k1)).
  { destruct HT as [(-> & EN)|(t0 & ts & ET & CF & HK & HQ & HD & L2)].
    - destruct (H0 eq_refl) as (CF & HK & HD). rewrite EN. exists t, []. split; [reflexivity|]. split; [exact CF|]. split; [exact HK|].
      rewrite EN in ER. assert (EL : lost = pLost s) by (cbn [lookRound kNext nth_error] in ER; destruct (lookBranch c (S f) t _) as [[k2|]|]; try discriminate; congruence).
      split; [exact EL|]. intros PL. rewrite EL, PL in ER. destruct (lookRound_ok c [n] [t] t (S f) _ 0 _ _ k1 HK eq_refl ER) as [KK KQ].
      pose proof (DV_round c TO ON t [n] [t] (S f) _ 0 _ _ k1 HK eq_refl HD ER) as DD.
      pose proof (ki_next _ _ _ _ _ _ KK) as FN. rewrite Forall_forall in FN.
      intros b1 b2 br1 br2 I1 I2 NE E1 E2. destruct (FN b1 I1) as (x1 & X1 & B1), (FN b2 I2) as (x2 & X2 & B2). rewrite E1 in X1. injection X1 as <-. rewrite E2 in X2. injection X2 as <-.
      exists (bRules br1), [], (bStack br1), (bRules br2), [], (bStack br2). rewrite !app_nil_r. split; [reflexivity|]. split; [reflexivity|]. split; [exact B1|]. split; [exact B2|].
      apply fork_neq. apply (DD b1 b2); [right; exists br1|right; exists br2|exact NE]; unfold all; rewrite KQ; cbn [app]; auto.
    - subst tokens. exists t0, (ts ++ [t]). split; [reflexivity|]. split; [exact CF|].
      pose proof (KI_start c [n] _ _ k None (kError k) HK HQ t) as HS. split; [exact HS|].
      pose proof (ki_next _ _ _ _ _ _ HK) as FN. pose proof (ki_nodup _ _ _ _ _ _ HK) as ND. rewrite HQ in ND. cbn [app] in ND. rewrite Forall_forall in FN.
      match type of ER with lookRound _ _ _ _ _ ?kk _ = _ => destruct (calm_round c TO t [n] ((t0 :: ts) ++ [t]) (S f) (kNext k) 0 kk (pLost s) k1 lost ND) as (EL & NX & SX); [intros b HB| |exact ER|] end.
      + cbn [kStore]. destruct (FN b HB) as (br & EB & BR). exists br. split; [exact EB|]. split; [apply (brun_ext c [n] (t0 :: ts) _ _ [] [t]) in BR; exact BR|].
        assert (OT : exists b2, In b2 (kNext k) /\ b2 <> b).
        { destruct (kNext k) as [|x [|y l]]; cbn [length] in L2; try lia. inversion ND as [|? ? NI _]; subst. destruct (Nat.eq_dec x b) as [->|NE].
          - exists y. split; [right; left; reflexivity|]. intros ->. apply NI. left. reflexivity.
          - exists x. split; [left; reflexivity|exact NE]. }
        destruct OT as (b2 & HB2 & NE). destruct (FN b2 HB2) as (br2 & EB2 & BR2).
        destruct (HD b b2 br br2 HB HB2 ltac:(congruence) EB EB2) as (p1 & q1 & k1' & p2 & q2 & k2 & Q1 & Q2 & P1 & P2 & PN).
        rewrite Q1 in BR. rewrite Q2 in BR2. rewrite Q1. eapply apart_calm; [exact CF|exact P1|exact P2|exact PN|exact BR|exact BR2].
      + cbn [kNext length]. lia.
      + split; [exact EL|]. intros _. cbn [kNext kStore] in NX, SX.
        assert (NX2 : forall z, In z (kNext k1) -> In z (kNext k)) by (intros z Z; apply NX in Z as [[]|Z]; exact Z).
        intros b1 b2 br1 br2 I1 I2 NE E1 E2. destruct (SX b1 br1 E1) as (x1 & y1 & X1 & Y1), (SX b2 br2 E2) as (x2 & y2 & X2 & Y2).
        destruct (HD b1 b2 x1 x2 (NX2 _ I1) (NX2 _ I2) NE X1 X2) as (p1 & q1 & k1' & p2 & q2 & k2 & Q1 & Q2 & P).
        exists p1, (q1 ++ y1), k1', p2, (q2 ++ y2), k2. rewrite Y1, Y2, Q1, Q2, <- !app_assoc. auto. }
  destruct RD as (t0 & ts & ET & CF & HK & -> & HF).
  set (fin := fun s2 : pstate => match match kNext k1 with b :: _ => Some b | [] => match kSuccess k1 with Some b => Some b | None => kError k1 end end with
      | None => Panic | Some b => match nth_error (kStore k1) b with Some br => Done (tokens ++ [t], bRules br) s2 | None => Panic end end).
  assert (FN : forall s2 : pstate, (pLost s = false -> pLost s2 = false) -> stay s (fin s2)).
  { intros s2 X. unfold fin. destruct (match kNext k1 with [] => _ | b :: _ => Some b end); [|exact I]. destruct (nth_error _ _); [exact X|exact I]. }
  destruct (length (kNext k1) <=? 1)%nat eqn:EL; [apply FN; cbn; auto|]. apply Nat.leb_gt in EL. destruct (lookTypes (kStore k1) (kNext k1) =? 0); [apply FN; cbn; auto|].
  pose proof (lost_nextToken c (S f) (lookTypes (kStore k1) (kNext k1)) (setLost s (pLost s))) as LN.
  destruct (nextToken c (S f) (lookTypes (kStore k1) (kNext k1)) (setLost s (pLost s))) as [t2 s2|e s2| |s2]; cbn in LN; [|apply FN; congruence|exact I|cbn; congruence].
  pose proof (IH t2 (tokens ++ [t]) k1 s2) as X. cbn in X.
  destruct (pLost s) eqn:PL; [destruct (lookLoop c f t2 (tokens ++ [t]) k1 s2); cbn; try exact I; congruence|].
  destruct (lookRound_ok c [n] (tokens ++ [t]) t (S f) (kNext k) 0 _ _ k1 HK eq_refl ER) as [KK KQ].
  assert (Y : stay s2 (lookLoop c f t2 (tokens ++ [t]) k1 s2)).
  { apply X.
    - right. exists t0, ts. split; [exact ET|]. split; [exact CF|]. rewrite last_last. split; [exact KK|]. split; [exact KQ|]. split; [exact (HF eq_refl)|lia].
    - intros Z. destruct tokens; discriminate. }
  destruct (lookLoop c f t2 (tokens ++ [t]) k1 s2); cbn in *; auto.
Qed.
Lemma resolve_stays fuel t s n ns : pStack s = n :: ns -> conflict c t (nState n) -> stay s (resolveConflict c fuel t s).
Proof.
  intros ES CF. unfold resolveConflict. rewrite ES. apply (look_stays (bare n)); [left; auto|]. intros _. split; [exact CF|]. split.
  - constructor; cbn [kStore kQueue kNext app].
    + repeat constructor. exists [t]. apply B_nil.
    + repeat constructor. exists (mkBranch [bare n] []). split; [reflexivity|apply B_nil].
    + constructor.
    + repeat constructor; auto.
  - intros b1 b2 e1 e2 L1 L2 NE. exfalso. apply NE. unfold live, all in L1, L2. cbn in L1, L2.
    destruct L1 as [(? & ? & [] & _)|(? & [L1|[]] & _)], L2 as [(? & ? & [] & _)|(? & [L2|[]] & _)]. congruence.
Qed.
Lemma nextRule_stays f t st s n ns : pStack s = n :: ns -> zget (gStates g) (nState n) = Some st -> stay s (nextRule c f t st s).
Proof.
  intros ES GS. unfold nextRule. destruct (pApplied s); [|cbn; auto]. destruct (findRules t st) as [[|r1 [|r2 rs]]|] eqn:EF; [cbn; auto|cbn; auto| |exact I].
  apply stay_bind; [eapply resolve_stays; [exact ES|eapply find_conflict; eauto]|]. intros [tokens rules] s'. destruct rules; [exact I|cbn; auto].
Qed.
Lemma parseLoop_stays : forall f used t s, stay s (parseLoop c f used t s).
Proof.
  induction f as [|f IH]; intros used t s; cbn [parseLoop]; [cbn; auto|]. destruct (pStack s) as [|n ns] eqn:ES; [cbn; auto|]. destruct used.
  - apply stay_bind; [apply stay_same; unfold checkCtx; destruct (cCtx c (pWorld s)) as [w [e|]]; reflexivity|]. intros _ s1. apply stay_bind; [apply stay_same, lost_nextToken|]. intros t1 s2.
    pose proof (IH false t1 (log (EvNext t1) s2)) as X. destruct (parseLoop _ _ _ _ _); exact X.
  - destruct (zget (gStates g) (nState n)) as [st|] eqn:GS; [|exact I]. apply stay_bind; [eapply nextRule_stays; eauto|]. intros [r|] s1.
    + apply stay_bind; [apply stay_same, sl_applyRule|]. intros. apply IH.
    + unfold syntaxError. apply stay_bind; [destruct t; [cbn; auto|apply stay_same, lost_nextToken]|]. intros t1 s2. destruct (getExpectedToken c st); [|exact I]. destruct t1; [|exact I]. cbn. auto.
Qed.
Lemma restLoop_stays : forall f s, stay s (restLoop c f s).
Proof.
  induction f as [|f IH]; intros s; cbn [restLoop]; [cbn; auto|]. apply stay_bind; [apply stay_same, lost_nextToken|]. intros [t|] s1; [|exact I]. destruct (_ =? _); [cbn; auto|]. destruct (isSideType _ _); [|cbn; auto].
  pose proof (IH (log (EvRest t) s1)) as X. destruct (restLoop _ _ _); exact X.
Qed.
Lemma parseFrom_stays f w t0 : match parseFrom c f w t0 with Done _ s | Fail _ s | NoFuel s => pLost s = false | Panic => True end.
Proof.
  unfold parseFrom, start. set (s00 := mkP w [] _ [] None [] [] false).
  assert (X : stay s00 (let! (_, s) := pushNode c RootNode (Some t0) s00 in parse c f s)).
  { apply stay_bind; [apply stay_same, sl_pushNode|]. intros _ s. unfold parse. apply stay_bind; [apply parseLoop_stays|]. intros [used t1] s1.
    assert (KK : forall (b : bool) (s2 : pstate), pLost s2 = pLost s1 -> stay s1 (let! (_, s3) := (if b then restLoop c f s2 else Done tt s2) in Done (pLast s3) s3)).
    { intros b s2 L2. pose proof (restLoop_stays f s2) as K. destruct b; [|cbn; congruence]. destruct (restLoop c f s2); cbn in *; auto; intros; apply K; congruence. }
    destruct used; [apply KK; reflexivity|]. destruct t1 as [t1|]; [|exact I]. destruct (cType c t1 =? EoiTokenType); apply KK; reflexivity. }
  destruct (let! (_, s) := pushNode c RootNode (Some t0) s00 in parse c f s); cbn in X; auto.
Qed.
End Q.
