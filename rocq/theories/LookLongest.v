(** Lookahead: all variants are traced, and the one that takes the longest run of tokens is chosen. *)
From Coq Require Import ZArith List Bool Lia Arith Permutation.
From Verif Require Import Base BaseProofs Grammar Rules RulesSpec Prop_Rules Parser ParserSpec ParserProofs ParserInv ParserStream ParserLook.
Import ListNotations.
Open Scope Z_scope.

Section P.
Context {Tok Src W E Inst R : Type}.
Variable c : config Tok Src W E Inst R.
Notation g := (cGrammar c).
Notation pstate := (pstate Tok Src W E Inst R).
Notation nodeRec := (nodeRec Tok Inst).
Notation branch := (branch Tok Inst).
Notation look := (Parser.look (Tok:=Tok) (Inst:=Inst)).
Notation findRules := (findRules (cType c) (cText c) (cUpper c) g).
Notation step := (ParserLook.step c).
Notation brun := (ParserLook.brun c).

(** ** Runs *)
Lemma brun_one s toks r s' toks' : step s toks r s' toks' -> brun s toks [r] s' toks'.
Proof. intros H. apply (B_snoc c s toks [] s toks r s' toks'); [constructor|exact H]. Qed.
Lemma brun_cons s toks r s1 toks1 : step s toks r s1 toks1 -> forall rs s2 rem, brun s1 toks1 rs s2 rem -> brun s toks (r :: rs) s2 rem.
Proof.
  intros H rs s2 rem B. induction B as [|toks1 rs ls rem r2 ls' rem' B IH S]; [apply brun_one, H|].
  change (r :: rs ++ [r2]) with ((r :: rs) ++ [r2]). eapply B_snoc; [apply IH, H|exact S].
Qed.
Lemma brun_head s toks rs s2 rem : brun s toks rs s2 rem ->
  (rs = [] /\ s2 = s /\ rem = toks) \/ exists r rs' s1 toks1, rs = r :: rs' /\ step s toks r s1 toks1 /\ brun s1 toks1 rs' s2 rem.
Proof.
  intros B. induction B as [toks|toks rs ls rem r ls' rem' B IH S]; [left; auto|]. right. destruct IH as [(-> & -> & ->)|(r1 & rs' & s1 & toks1 & -> & S1 & B1)].
  - exists r, [], ls', rem'. split; [reflexivity|]. split; [exact S|constructor].
  - exists r1, (rs' ++ [r]), s1, toks1. split; [reflexivity|]. split; [exact S1|]. eapply B_snoc; eauto.
Qed.
Lemma brun_nothing s rs s2 rem : brun s [] rs s2 rem -> rs = [] /\ s2 = s /\ rem = [].
Proof. intros B. apply brun_head in B as [B|(r & rs' & s1 & toks1 & -> & S & _)]; [exact B|inversion S]. Qed.
Lemma brun_empty toks rs s2 rem : brun [] toks rs s2 rem -> rs = [] /\ s2 = [] /\ rem = toks.
Proof. intros B. apply brun_head in B as [B|(r & rs' & s1 & toks1 & -> & S & _)]; [exact B|inversion S]. Qed.
Lemma step_fun s toks r s1 toks1 s2 toks2 : step s toks r s1 toks1 -> step s toks r s2 toks2 -> s1 = s2 /\ toks1 = toks2.
Proof. intros A B. inversion A; subst. inversion B; subst. match goal with H1 : dryRule c _ _ _ = Some _, H2 : dryRule c _ _ _ = Some _ |- _ => rewrite H1 in H2; injection H2 as -> -> end. auto. Qed.
Lemma brun_trans s toks rs1 s1 toks1 rs2 s2 rem : brun s toks rs1 s1 toks1 -> brun s1 toks1 rs2 s2 rem -> brun s toks (rs1 ++ rs2) s2 rem.
Proof. intros A B. revert A. induction B; intros A; [rewrite app_nil_r; exact A|]. rewrite app_assoc. eapply B_snoc; eauto. Qed.

Variable s0 : list nodeRec.
(** one more token *)
Lemma brun_split T0 t rs ls rem : brun s0 (T0 ++ [t]) rs ls rem ->
  (exists rem0, rem = rem0 ++ [t] /\ brun s0 T0 rs ls rem0 /\ rem0 <> []) \/
  exists rs1 ls1 rs2, rs = rs1 ++ rs2 /\ brun s0 T0 rs1 ls1 [] /\ brun ls1 [t] rs2 ls rem.
Proof.
  intros B. remember (T0 ++ [t]) as T eqn:ET. induction B as [T|T rs ls rem r ls' rem' B IH S].
  - subst. destruct T0 as [|x T0]; [right; exists [], s0, []; repeat split; constructor|]. left. exists (x :: T0). split; [reflexivity|]. split; [constructor|discriminate].
  - destruct (IH ET) as [(rem0 & -> & B0 & NE)|(rs1 & ls1 & rs2 & -> & B1 & B2)].
    + destruct rem0 as [|x rem0]; [contradiction|]. inversion S as [n ls0 t' toks r0 st l cons ls2 A1 A2 A3 A4]; subst. 
      assert (S' : step (n :: ls0) (x :: rem0) r ls' (if cons then rem0 else x :: rem0)) by (econstructor; eauto). destruct cons.
      * destruct rem0 as [|y rem0].
        -- right. exists (rs ++ [r]), ls', []. rewrite app_nil_r. split; [reflexivity|]. split; [eapply B_snoc; eauto|]. apply B_nil.
        -- left. exists (y :: rem0). split; [reflexivity|]. split; [eapply B_snoc; eauto|discriminate].
      * left. exists (x :: rem0). split; [reflexivity|]. split; [eapply B_snoc; eauto|discriminate].
    + right. exists rs1, ls1, (rs2 ++ [r]). rewrite app_assoc. split; [reflexivity|]. split; [exact B1|]. eapply B_snoc; eauto.
Qed.

(** ** All variants are traced *)
Section Round.
Variable T : list (option Tok).
Variable t : option Tok.
Definition wanted (ls : list nodeRec) (rem : list (option Tok)) : Prop := rem = [] \/ (rem = [t] /\ ls = []).
Definition pending (todo : list (nat * rule)) (rest : list nat) (k : look) : list nat := map fst todo ++ rest ++ kQueue k.
Definition byError (todo : list (nat * rule)) rest (k : look) : Prop := exists b br, kError k = Some b /\ ~ In b (pending todo rest k) /\ nth_error (kStore k) b = Some br /\ brun s0 T (bRules br) (bStack br) [t].
Record KC (todo : list (nat * rule)) (rest : list nat) (k : look) : Prop := mkKC {
  kc_all : forall rs ls rem, brun s0 T rs ls rem -> wanted ls rem ->
    (rem = [] /\ exists b, In b (kNext k) /\ nth_error (kStore k) b = Some (mkBranch ls rs)) \/
    (rem = [t] /\ kSuccess k <> None) \/
    (exists b br rs2, In b (rest ++ kQueue k) /\ nth_error (kStore k) b = Some br /\ rs = bRules br ++ rs2 /\ brun (bStack br) [t] rs2 ls rem) \/
    (exists b r br rs2 ls1 rem1, In (b, r) todo /\ nth_error (kStore k) b = Some br /\ rs = bRules br ++ r :: rs2 /\ step (bStack br) [t] r ls1 rem1 /\ brun ls1 rem1 rs2 ls rem);
  kc_success : forall b, kSuccess k = Some b -> ~ In b (pending todo rest k) /\ exists br, nth_error (kStore k) b = Some br /\ bStack br = [] /\ brun s0 T (bRules br) [] [t];
  kc_some : kNext k <> [] \/ kSuccess k <> None \/ byError todo rest k \/ pending todo rest k <> [] }.

Lemma KC_apply todo rest b r k k' br n ls st l :
  KI c s0 T t (b :: map fst todo ++ rest) k -> KC ((b, r) :: todo) rest k -> nth_error (kStore k) b = Some br -> bStack br = n :: ls ->
  zget (gStates g) (nState n) = Some st -> findRules t st = Some l -> In r l -> lookApply c t b r k = Some k' -> KC todo rest k'.
Proof.
  intros HK [A1 A2 A3] EB EN ES EF HI H. pose proof (ki_nodup _ _ _ _ _ _ HK) as ND. pose proof (Forall_inv (ki_cur _ _ _ _ _ _ HK)) as (br0 & EB0 & BR). rewrite EB in EB0. injection EB0 as <-. rewrite EN in BR.
  unfold lookApply in H. rewrite EB in H. cbn [obind] in H. rewrite EN in H. destruct (dryRule c t r (n :: ls)) as [[cons ls']|] eqn:ED; [|discriminate]. cbn [obind] in H.
  assert (SB : step (bStack br) [t] r ls' (if cons then [] else [t])) by (rewrite EN; apply (ST c n ls t [] r st l cons ls' ES EF HI ED)).
  set (br' := mkBranch ls' (bRules br ++ [r])) in *.
  assert (LT : (b < length (kStore k))%nat) by (apply nth_error_Some; congruence).
  assert (NB : nth_error (upd (kStore k) b br') b = Some br') by (rewrite nth_error_upd by exact LT; rewrite Nat.eqb_refl; reflexivity).
  assert (OTH : forall b', b' <> b -> nth_error (upd (kStore k) b br') b' = nth_error (kStore k) b').
  { intros b' NE. rewrite nth_error_upd; auto. destruct (Nat.eqb_spec b' b); congruence. }
  cbn [app] in ND. inversion ND as [|? ? NI ND2]; subst. rewrite <- !app_assoc in NI.
  assert (NT : forall x, In x (map fst todo) -> x <> b) by (intros x X ->; apply NI, in_or_app; left; exact X).
  assert (NR : forall x, In x (rest ++ kQueue k) -> x <> b) by (intros x X ->; apply NI; apply in_or_app; right; rewrite app_assoc; apply in_or_app; left; exact X).
  assert (NN : forall x, In x (kNext k) -> x <> b) by (intros x X ->; apply NI; apply in_or_app; right; apply in_or_app; right; apply in_or_app; right; exact X).
  assert (RB : brun s0 T (bRules br ++ [r]) ls' (if cons then [] else [t])) by (eapply B_snoc; [exact BR|]; rewrite EN in SB; exact SB).
  assert (SUB : forall x, x <> b -> In x (map fst todo ++ rest ++ kQueue k ++ [b]) -> In x (pending ((b, r) :: todo) rest k)).
  { unfold pending. cbn [map fst app In]. intros x NE X. right. rewrite !app_assoc in X. apply in_app_or in X as [X|[X|[]]]; [rewrite <- app_assoc in X; exact X|congruence]. }
  set (D := fun k' : look => forall rs ls2 rem, brun s0 T rs ls2 rem -> wanted ls2 rem ->
    (exists rs2, rs = (bRules br ++ [r]) ++ rs2 /\ brun ls' (if cons then [] else [t]) rs2 ls2 rem) \/
    (rem = [] /\ exists b', In b' (kNext k) /\ nth_error (upd (kStore k) b br') b' = Some (mkBranch ls2 rs)) \/
    (rem = [t] /\ kSuccess k <> None) \/
    (exists b' br2 rs2, In b' (rest ++ kQueue k) /\ nth_error (upd (kStore k) b br') b' = Some br2 /\ rs = bRules br2 ++ rs2 /\ brun (bStack br2) [t] rs2 ls2 rem) \/
    (exists b' r2 br2 rs2 ls1 rem1, In (b', r2) todo /\ nth_error (upd (kStore k) b br') b' = Some br2 /\ rs = bRules br2 ++ r2 :: rs2 /\ step (bStack br2) [t] r2 ls1 rem1 /\ brun ls1 rem1 rs2 ls2 rem)).
  assert (HD : D k).
  { intros rs ls2 rem B1 W1. destruct (A1 rs ls2 rem B1 W1) as [(-> & b' & X1 & X2)|[X|[(b' & br2 & rs2 & X1 & X2 & X3 & X4)|(b' & r2 & br2 & rs2 & ls1 & rem1 & X1 & X2 & X3 & X4 & X5)]]].
    - right. left. split; [reflexivity|]. exists b'. rewrite OTH by (apply NN; exact X1). auto.
    - right. right. left. exact X.
    - right. right. right. left. exists b', br2, rs2. rewrite OTH by (apply NR; exact X1). auto.
    - destruct X1 as [X1|X1].
      + injection X1 as <- <-. left. rewrite EB in X2. injection X2 as <-. destruct (step_fun _ _ _ _ _ _ _ X4 SB) as [-> ->].
        exists rs2. rewrite <- app_assoc. auto.
      + right. right. right. right. exists b', r2, br2, rs2, ls1, rem1. rewrite OTH by (apply NT; apply (in_map fst) in X1; exact X1). auto 6. }
  clear A1.
  assert (HS : forall b', kSuccess k = Some b' -> b' <> b /\ ~ In b' (map fst todo ++ rest ++ kQueue k ++ [b]) /\ exists br2, nth_error (upd (kStore k) b br') b' = Some br2 /\ bStack br2 = [] /\ brun s0 T (bRules br2) [] [t]).
  { intros b' HB. destruct (A2 b' HB) as (X1 & br2 & X2 & X3 & X4). assert (NE : b' <> b) by (intros ->; apply X1; left; reflexivity).
    split; [exact NE|]. split; [intros X; apply X1, SUB; assumption|]. exists br2. rewrite OTH by exact NE. auto. }
  assert (HE : byError ((b, r) :: todo) rest k -> exists b' br2, kError k = Some b' /\ ~ In b' (map fst todo ++ rest ++ kQueue k ++ [b]) /\ nth_error (upd (kStore k) b br') b' = Some br2 /\ brun s0 T (bRules br2) (bStack br2) [t]).
  { intros (b' & br2 & X0 & X1 & X2 & X3). assert (NE : b' <> b) by (intros ->; apply X1; left; reflexivity). exists b', br2.
    split; [exact X0|]. split; [intros X; apply X1, SUB; assumption|]. rewrite OTH by exact NE. auto. }
  clear A2 A3. assert (SUB2 : forall x, In x (map fst todo ++ rest ++ kQueue k) -> In x (map fst todo ++ rest ++ kQueue k ++ [b])) by (intros x X; rewrite !app_assoc; apply in_or_app; left; rewrite <- app_assoc; exact X).
  destruct cons; [rewrite orb_true_r in H|rewrite orb_false_r in H; destruct ls' as [|n' ls']]; injection H as <-; constructor; unfold pending, byError; cbn [kStore kNext kQueue kSuccess kError].
  - intros rs ls2 rem B1 W1. destruct (HD rs ls2 rem B1 W1) as [(rs2 & -> & X)|[(-> & b' & X1 & X2)|[X|[X|X]]]]; auto.
    + apply brun_nothing in X as (-> & -> & ->). left. split; [reflexivity|]. exists b. rewrite app_nil_r, NB. split; [apply in_or_app; right; left; reflexivity|reflexivity].
    + left. split; [reflexivity|]. exists b'. split; [apply in_or_app; left; exact X1|exact X2].
  - intros b' HB. destruct (HS b' HB) as (X1 & X2 & X3). split; [intros X; apply X2, SUB2, X|exact X3].
  - left. destruct (kNext k); discriminate.
  - intros rs ls2 rem B1 W1. destruct (HD rs ls2 rem B1 W1) as [(rs2 & -> & X)|[X|[(-> & X)|[X|X]]]]; auto.
    + apply brun_empty in X as (-> & -> & ->). right. left. split; [reflexivity|discriminate].
    + right. left. split; [reflexivity|discriminate].
  - intros b' HB. injection HB as <-. split; [intros X; apply NI; rewrite !app_assoc; apply in_or_app; left; rewrite <- app_assoc; exact X|]. exists br'. split; [exact NB|]. split; [reflexivity|exact RB].
  - right. left. discriminate.
  - intros rs ls2 rem B1 W1. destruct (HD rs ls2 rem B1 W1) as [(rs2 & -> & X)|[X|[X|[(b' & br2 & rs2 & X1 & X2)|X]]]]; auto.
    + right. right. left. exists b, br', rs2. split; [rewrite app_assoc; apply in_or_app; right; left; reflexivity|]. split; [exact NB|]. split; [reflexivity|exact X].
    + right. right. left. exists b', br2, rs2. split; [rewrite app_assoc; apply in_or_app; left; exact X1|exact X2].
  - intros b' HB. destruct (HS b' HB) as (X1 & X2 & X3). split; [exact X2|exact X3].
  - right. right. right. intros X. apply app_eq_nil in X as [_ X]. apply app_eq_nil in X as [_ X]. destruct (kQueue k); discriminate.
Qed.

Lemma KC_split br n ls st l : bStack br = n :: ls -> zget (gStates g) (nState n) = Some st -> findRules t st = Some l ->
  forall todo rest k k', (forall b r, In (b, r) todo -> In r l) -> KI c s0 T t (map fst todo ++ rest) k -> KC todo rest k ->
  (forall b r, In (b, r) todo -> nth_error (kStore k) b = Some br) -> lookSplit c t (map fst todo) (map snd todo) k = Some k' -> KC [] rest k'.
Proof.
  intros EN ES EF. induction todo as [|[b r] todo IH]; intros rest k k' HR HK HC HB H.
  - injection H as <-. exact HC.
  - cbn [map fst snd lookSplit] in *. destruct (lookApply c t b r k) as [k1|] eqn:E1; [|discriminate]. cbn [obind] in H.
    destruct (lookApply_ok c s0 T t b r (map fst todo ++ rest) k k1 br n ls st l) as (A1 & A2 & A3); auto; [eapply HB; left; reflexivity|eapply HR; left; reflexivity|].
    eapply (IH rest k1 k'); [intros; eapply HR; right; eauto|exact A1| | |exact H].
    + eapply KC_apply; eauto; [eapply HB; left; reflexivity|eapply HR; left; reflexivity].
    + intros b' r' HB'. rewrite A2; [eapply HB; right; exact HB'|]. intros ->.
      pose proof (ki_nodup _ _ _ _ _ _ HK) as ND. cbn in ND. inversion ND as [|? ? NI _]; subst. apply NI. rewrite <- app_assoc. apply in_or_app. left. apply (in_map fst) in HB'. exact HB'.
Qed.

Lemma KI_copies b q rest k br (rs : list rule) : KI c s0 T t (b :: rest) (mkLook (kStore k) (kNext k) q (kSuccess k) (kError k)) -> nth_error (kStore k) b = Some br ->
  KI c s0 T t ((b :: seq (length (kStore k)) (length rs - 1)) ++ rest) (mkLook (kStore k ++ repeat br (length rs - 1)) (kNext k) q (kSuccess k) (kError k)).
Proof.
  intros HK1 EB. pose proof (Forall_inv (ki_cur _ _ _ _ _ _ HK1)) as HB. cbn [kStore] in HB.
        destruct HK1 as [A1 A2 A3 A4]. cbn [kStore kNext kQueue] in *.
        assert (HB' : exists rem, brun s0 T (bRules br) (bStack br) rem) by (destruct HB as (br' & E2 & X); rewrite EB in E2; injection E2 as <-; eauto).
        assert (LT : forall x, In x (b :: rest ++ q ++ kNext k) -> (x < length (kStore k))%nat).
        { intros x HX. rewrite Forall_forall in A2, A3. change (b :: rest ++ q ++ kNext k) with ((b :: rest) ++ q ++ kNext k) in HX.
          rewrite app_assoc in HX. apply in_app_or in HX as [HX|HX]; [apply A2 in HX|apply A3 in HX]; eapply branchAt_lt; eauto. }
        constructor; cbn [kStore kNext kQueue].
        -- apply Forall_app. split; auto. apply Forall_forall. intros x HX. apply repeat_spec in HX. subst x. auto.
        -- apply Forall_forall. intros x HX. rewrite <- app_assoc in HX. cbn [app] in HX. destruct HX as [<-|HX]; [apply branchAt_app; exact HB|].
           apply in_app_or in HX as [HX|HX].
           ++ apply in_seq in HX. destruct HB as (br' & E2 & X). rewrite EB in E2. injection E2 as <-. exists br. split; auto.
              rewrite nth_error_app2 by lia. apply nth_error_repeat. lia.
           ++ apply branchAt_app. rewrite Forall_forall in A2. apply A2. right. auto.
        -- apply Forall_forall. intros x HX. apply branchAt_app. rewrite Forall_forall in A3. auto.
        -- cbn [app]. inversion A4 as [|? ? NI ND]; subst. constructor.
           ++ intros HX. rewrite <- app_assoc in HX. apply in_app_or in HX as [HX|HX]; [|exact (NI HX)].
              apply in_seq in HX. specialize (LT b (or_introl eq_refl)). lia.
           ++ rewrite <- app_assoc. set (len := (length rs - 1)%nat) in *.
              assert (SD := seq_NoDup len (length (kStore k))).
              revert ND LT SD. generalize (rest ++ q ++ kNext k) (length (kStore k)). clear.
              intros Y m ND LT SD. assert (DJ : forall x, In x (seq m len) -> ~ In x Y).
              { intros x HX HY. apply in_seq in HX. specialize (LT x (or_intror HY)). lia. }
              revert SD DJ. generalize (seq m len). intros X. induction X as [|x X IHX]; intros SD DJ; [exact ND|].
              cbn. inversion SD as [|? ? N1 N2]; subst. constructor.
              ** intros HX. apply in_app_or in HX as [HX|HX]; [auto|]. exact (DJ x (or_introl eq_refl) HX).
              ** apply IHX; auto. intros y HY. apply DJ. right. auto.
Qed.

Lemma map_fst_combine {A B} : forall (a : list A) (b : list B), length a = length b -> map fst (combine a b) = a.
Proof. induction a as [|x a IH]; intros [|y b] H; try discriminate; auto. cbn. f_equal. apply IH. cbn in H. lia. Qed.
Lemma map_snd_combine {A B} : forall (a : list A) (b : list B), length a = length b -> map snd (combine a b) = b.
Proof. induction a as [|x a IH]; intros [|y b] H; try discriminate; auto. cbn. f_equal. apply IH. cbn in H. lia. Qed.
Lemma in_combine_r2 {A B} : forall (a : list A) (b : list B) y, length a = length b -> In y b -> exists x, In (x, y) (combine a b).
Proof. induction a as [|x a IH]; intros [|z b] y H HI; try discriminate; [destruct HI|]. destruct HI as [<-|HI]; [exists x; left; reflexivity|]. destruct (IH b y) as (x' & X); [cbn in H; lia|exact HI|]. exists x'. right. exact X. Qed.

Lemma KC_branch rest : forall fuel k k', KI c s0 T t rest k -> KC [] rest k -> lookBranch c fuel t k = Some (Some k') -> KC [] rest k'.
Proof.
  induction fuel as [|f IH]; intros k k' HK HC H; cbn [lookBranch] in H; [discriminate|].
  destruct (kQueue k) as [|b q] eqn:EQ; [injection H as <-; auto|].
  pose proof (KI_pop c s0 T t b q rest k HK EQ) as HK1. cbn [kStore kNext kQueue kSuccess kError] in H.
  destruct (nth_error (kStore k) b) as [br|] eqn:EB; [|discriminate].
  pose proof (Forall_inv (ki_cur _ _ _ _ _ _ HK1)) as (br0 & EB0 & BR). cbn [kStore] in EB0. rewrite EB in EB0. injection EB0 as <-.
  pose proof (ki_nodup _ _ _ _ _ _ HK1) as ND. cbn [kQueue kNext app] in ND. inversion ND as [|? ? NI ND2]; subst.
  assert (NR : ~ In b (rest ++ q)) by (intros X; apply NI; rewrite app_assoc; apply in_or_app; left; exact X).
  assert (SUB : forall x, In x (rest ++ q) -> In x (rest ++ b :: q)) by (intros x X; apply in_app_or in X as [X|X]; apply in_or_app; [left|right; right]; exact X).
  destruct HC as [A1 A2 A3]. unfold byError, pending in *. rewrite EQ in *. cbn [map app] in *.
  assert (A1' : forall rs ls2 rem, brun s0 T rs ls2 rem -> wanted ls2 rem ->
    (exists rs2, rs = bRules br ++ rs2 /\ brun (bStack br) [t] rs2 ls2 rem) \/
    (rem = [] /\ exists b', In b' (kNext k) /\ nth_error (kStore k) b' = Some (mkBranch ls2 rs)) \/
    (rem = [t] /\ kSuccess k <> None) \/
    (exists b' br2 rs2, In b' (rest ++ q) /\ nth_error (kStore k) b' = Some br2 /\ rs = bRules br2 ++ rs2 /\ brun (bStack br2) [t] rs2 ls2 rem)).
  { intros rs ls2 rem B1 W1. destruct (A1 rs ls2 rem B1 W1) as [X|[X|[(b' & br2 & rs2 & X1 & X2 & X3 & X4)|(b' & r2 & br2 & rs2 & ls1 & rem1 & [] & _)]]]; auto.
    apply in_app_or in X1 as [X1|[<-|X1]].
    - right. right. right. exists b', br2, rs2. split; [apply in_or_app; left; exact X1|auto].
    - rewrite EB in X2. injection X2 as <-. left. eauto.
    - right. right. right. exists b', br2, rs2. split; [apply in_or_app; right; exact X1|auto]. }
  clear A1. destruct (bStack br) as [|n ls] eqn:EN.
  - eapply IH; [| |exact H]; [apply (KI_ext c s0 _ _ _ _ (Some b) (kError k)) in HK1; apply KI_drop in HK1; exact HK1|].
    constructor; unfold pending; cbn [kStore kNext kQueue kSuccess kError map app].
    + intros rs ls2 rem B1 W1. destruct (A1' rs ls2 rem B1 W1) as [(rs2 & -> & X)|[X|[(-> & X)|X]]]; auto; [apply brun_empty in X as (-> & -> & ->)|]; right; left; split; auto; discriminate.
    + intros b' HB. injection HB as <-. split; [exact NR|]. exists br. auto.
    + right. left. discriminate.
  - destruct (zget (gStates g) (nState n)) as [st|] eqn:ES; [|discriminate]. cbn [obind] in H.
    destruct (findRules t st) as [rs|] eqn:EF; [|discriminate]. destruct rs as [|r0 rs].
    + eapply IH; [| |exact H]; [apply (KI_ext c s0 _ _ _ _ (kSuccess k) (Some b)) in HK1; apply KI_drop in HK1; exact HK1|].
      constructor; unfold byError, pending; cbn [kStore kNext kQueue kSuccess kError map app].
      * intros rs ls2 rem B1 W1. destruct (A1' rs ls2 rem B1 W1) as [(rs2 & -> & X)|[X|[X|X]]]; auto.
        exfalso. apply brun_head in X as [(-> & -> & ->)|(r & rs' & s1 & toks1 & -> & X & _)].
        -- destruct W1 as [W1|[_ W1]]; discriminate.
        -- inversion X; subst. match goal with HZ : zget _ _ = Some ?a, HF : findRules t ?a = Some _ |- _ => rewrite ES in HZ; injection HZ as <-; rewrite EF in HF; injection HF as <- end. contradiction.
      * intros b' HB. destruct (A2 b' HB) as (X1 & X2). split; [intros X; apply X1, SUB, X|exact X2].
      * right. right. left. exists b, br. split; [reflexivity|]. split; [exact NR|]. split; [exact EB|]. rewrite EN. exact BR.
    + remember (r0 :: rs) as l eqn:El.
      match type of H with match lookSplit c t ?ids l ?k0 with _ => _ end = _ => set (kk := k0) in *; set (idl := ids) in * end.
      destruct (lookSplit c t idl l kk) as [k1|] eqn:E1; [|discriminate].
      assert (LEN : length idl = length l) by (unfold idl; cbn; rewrite seq_length, El; cbn; lia).
      assert (IDS : forall x, In x idl -> nth_error (kStore kk) x = Some br).
      { intros x HX. unfold kk. cbn [kStore]. destruct HX as [<-|HX].
        - rewrite nth_error_app1; auto. apply nth_error_Some. congruence.
        - apply in_seq in HX. rewrite nth_error_app2 by lia. apply nth_error_repeat. lia. }
      assert (OLD : forall x br2, nth_error (kStore k) x = Some br2 -> nth_error (kStore kk) x = Some br2).
      { intros x br2 X. unfold kk. cbn [kStore]. rewrite nth_error_app1; auto. apply nth_error_Some. congruence. }
      assert (HKK : KI c s0 T t (idl ++ rest) kk) by (apply (KI_copies b q rest k br l HK1 EB)).
      assert (FRESH : forall x br2, nth_error (kStore k) x = Some br2 -> In x (idl ++ rest ++ q) -> In x (rest ++ b :: q)).
      { intros x br2 X HX. apply in_app_or in HX as [HX|HX]; [|apply SUB, HX]. destruct HX as [<-|HX]; [apply in_or_app; right; left; reflexivity|].
        apply in_seq in HX. assert (x < length (kStore k))%nat by (apply nth_error_Some; congruence). lia. }
      pose proof (KC_split br n ls st l EN ES EF (combine idl l) rest kk k1) as KS. rewrite map_fst_combine, map_snd_combine in KS by exact LEN.
      eapply IH; [| |exact H]; [eapply (lookSplit_ok c s0 T t br n ls st l EN ES EF idl l rest kk k1); auto|].
      apply KS; [intros b' r' X; apply in_combine_r in X; exact X|exact HKK| |intros b' r' X; apply IDS; apply in_combine_l in X; exact X|exact E1].
      constructor; unfold byError, pending; rewrite ?map_fst_combine by exact LEN.
      * intros rs' ls2 rem B1 W1. destruct (A1' rs' ls2 rem B1 W1) as [(rs2 & -> & X)|[(-> & b' & X1 & X2)|[X|(b' & br2 & rs2 & X1 & X2 & X3 & X4)]]].
        -- right. right. right. apply brun_head in X as [(-> & -> & ->)|(r & rs3 & s1 & toks1 & -> & X & Y)]; [destruct W1 as [W1|[_ W1]]; discriminate|].
           assert (HR : In r l).
           { inversion X; subst. match goal with HZ : zget _ _ = Some ?a, HF : findRules t ?a = Some _ |- _ => rewrite ES in HZ; injection HZ as <-; rewrite EF in HF; injection HF as <- end. assumption. }
           destruct (in_combine_r2 idl l r LEN HR) as (x & HX). exists x, r, br, rs3, s1, toks1. split; [exact HX|]. split; [apply IDS; apply in_combine_l in HX; exact HX|].
           split; [reflexivity|]. split; [rewrite EN; exact X|exact Y].
        -- left. split; [reflexivity|]. exists b'. split; [exact X1|apply OLD, X2].
        -- right. left. exact X.
        -- right. right. left. exists b', br2, rs2. split; [exact X1|]. split; [apply OLD, X2|auto].
      * intros b' HB. destruct (A2 b' HB) as (X1 & br2 & X2 & X3). split; [intros X; apply X1, (FRESH b' br2 X2 X)|]. exists br2. split; [apply OLD, X2|exact X3].
      * right. right. right. discriminate.
Qed.

Lemma KC_same rest rest' k k' : kStore k' = kStore k -> kNext k' = kNext k -> kSuccess k' = kSuccess k -> kError k' = kError k ->
  (forall x, In x (rest' ++ kQueue k') <-> In x (rest ++ kQueue k)) -> KC [] rest k -> KC [] rest' k'.
Proof.
  intros E1 E2 E3 E4 E5 [A1 A2 A3]. unfold byError, pending in *. cbn [map app] in *. constructor; unfold byError, pending; cbn [map app]; rewrite ?E1, ?E2, ?E3, ?E4.
  - intros rs ls rem B1 W1. destruct (A1 rs ls rem B1 W1) as [X|[X|[(b' & br2 & rs2 & X1 & X2)|X]]]; auto. right. right. left. exists b', br2, rs2. split; [apply E5, X1|exact X2].
  - intros b HB. destruct (A2 b HB) as [X1 X2]. split; [rewrite E5; exact X1|exact X2].
  - destruct A3 as [X|[X|[(b & br & X1 & X2 & X3)|X]]]; auto.
    + right. right. left. exists b, br. split; [exact X1|]. split; [rewrite E5; exact X2|exact X3].
    + right. right. right. destruct (rest ++ kQueue k) as [|x l]; [contradiction|]. intros Y. pose proof (proj2 (E5 x) (or_introl eq_refl)) as Z. rewrite Y in Z. destruct Z.
Qed.
Lemma KC_round fuel : forall branches i k lost k', KI c s0 T t branches k -> kQueue k = [] -> KC [] branches k ->
  lookRound c fuel t i branches k lost = Some (Some (k', false)) -> KC [] [] k'.
Proof.
  induction branches as [|b r IH]; intros i k lost k' HK HQ HC H; cbn [lookRound] in H; [injection H as <- ->; auto|].
  destruct (nth_error (kNext k) i) as [b'|].
  - destruct (lookBranch c fuel t _) as [[k1|]|]; try discriminate. apply lookRound_lost in H; [discriminate|auto].
  - destruct (lookBranch c fuel t _) as [[k1|]|] eqn:EL; try discriminate.
    assert (HK2 : KI c s0 T t r (mkLook (kStore k) (kNext k) [b] (kSuccess k) (kError k))).
    { destruct HK as [A1 A2 A3 A4]. rewrite HQ in *. constructor; cbn [kStore kNext kQueue]; auto.
      * apply Forall_app. rewrite app_nil_r in A2. split; [exact (Forall_inv_tail A2)|]. constructor; auto. exact (Forall_inv A2).
      * eapply Permutation_NoDup; [|exact A4]. cbn [app]. apply Permutation_middle. }
    destruct (lookBranch_ok c s0 T t r fuel _ _ HK2 EL) as [A B]. eapply IH; [exact A|exact B| |exact H].
    eapply (KC_branch r fuel); [exact HK2| |exact EL]. eapply KC_same; [..|exact HC]; try reflexivity.
    cbn [kQueue]. rewrite HQ, app_nil_r. intros x. rewrite in_app_iff. cbn. tauto.
Qed.
End Round.

(** all variants that take the tokens read so far *)
Definition allTraced (T : list (option Tok)) (k : look) : Prop := forall rs ls, brun s0 T rs ls [] -> exists b, In b (kNext k) /\ nth_error (kStore k) b = Some (mkBranch ls rs).
Lemma KC_start T0 t k e : allTraced T0 k -> kNext k <> [] -> KC (T0 ++ [t]) t [] (kNext k) (mkLook (kStore k) [] [] None e).
Proof.
  intros HA NE. constructor; unfold pending; cbn [kStore kNext kQueue kSuccess kError map app]; rewrite ?app_nil_r.
  - intros rs ls rem B W1. right. right. left. destruct (brun_split T0 t rs ls rem B) as [(rem0 & -> & _ & N0)|(rs1 & ls1 & rs2 & -> & B1 & B2)].
    + exfalso. destruct rem0 as [|x rem0]; [congruence|]. destruct W1 as [W1|[W1 _]]; [discriminate|]. injection W1 as _ W1. destruct rem0; discriminate.
    + destruct (HA rs1 ls1 B1) as (b & X1 & X2). exists b, (mkBranch ls1 rs1), rs2. auto.
  - discriminate.
  - auto.
Qed.
Lemma KC_traced T t k : KC T t [] [] k -> kQueue k = [] -> allTraced T k.
Proof.
  intros [A1 _ _] HQ rs ls B. rewrite HQ in A1. destruct (A1 rs ls [] B (or_introl eq_refl)) as [(_ & X)|[(X & _)|[(b & br & rs2 & [] & _)|(b & r & br & rs2 & ls1 & rem1 & [] & _)]]]; [exact X|discriminate].
Qed.

(** the choice *)
Definition longest (x : list (option Tok) * list rule) : Prop := exists ls rem, brun s0 (fst x) (snd x) ls rem /\
  (forall rs' ls' rem', brun s0 (fst x) rs' ls' rem' -> (length rem <= length rem')%nat) /\
  (rem <> [] -> (exists rs', brun s0 (fst x) rs' [] rem) -> ls = []).
Lemma choice T t k b br : KI c s0 T t [] k -> KC T t [] [] k -> kQueue k = [] ->
  match kNext k with b :: _ => Some b | [] => match kSuccess k with Some b => Some b | None => kError k end end = Some b ->
  nth_error (kStore k) b = Some br -> longest (T, bRules br).
Proof.
  intros HK HC HQ HB EB. pose proof (KC_traced T t k HC HQ) as HT. unfold longest. cbn [fst snd]. destruct (kNext k) as [|b0 nx] eqn:EN.
  - assert (NO : forall rs' ls' rem', brun s0 T rs' ls' rem' -> (1 <= length rem')%nat).
    { intros rs' ls' [|x rem'] B; [|cbn; lia]. destruct (HT rs' ls' B) as (x & X & _). rewrite EN in X. destruct X. }
    destruct (kSuccess k) as [b1|] eqn:ES.
    + injection HB as <-. destruct (kc_success _ _ _ _ _ HC b1 ES) as (_ & br2 & X1 & X2 & X3). rewrite EB in X1. injection X1 as <-.
      exists [], [t]. split; [exact X3|]. split; [exact NO|]. auto.
    + destruct (kc_some _ _ _ _ _ HC) as [X|[X|[(b2 & br2 & X1 & X2 & X3 & X4)|X]]]; [congruence|congruence| |unfold pending in X; rewrite HQ in X; contradiction].
      rewrite HB in X1. injection X1 as <-. rewrite EB in X3. injection X3 as <-. exists (bStack br), [t]. split; [exact X4|]. split; [exact NO|].
      intros _ (rs' & X). exfalso. destruct (kc_all _ _ _ _ _ HC rs' [] [t] X (or_intror (conj eq_refl eq_refl))) as [(Y & _)|[(_ & Y)|[(b3 & br3 & rs2 & Y & _)|(b3 & r3 & br3 & rs2 & ls1 & rem1 & [] & _)]]]; [discriminate|contradiction|].
      rewrite HQ in Y. destruct Y.
  - injection HB as <-. pose proof (ki_next _ _ _ _ _ _ HK) as HN. rewrite EN in HN. destruct (Forall_inv HN) as (br2 & X1 & X2). rewrite EB in X1. injection X1 as <-.
    exists (bStack br), []. split; [exact X2|]. split; [cbn; lia|]. congruence.
Qed.
End P.
