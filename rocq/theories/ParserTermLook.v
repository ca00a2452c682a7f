(** Lookahead comes to an end. *)
From Coq Require Import ZArith List Bool Lia Arith.
From Verif Require Import Base BaseProofs Grammar Rules RulesSpec Parser ParserSpec ParserProofs ParserInv ParserStream ParserLook ParserTermSpec ParserIdle ParserFuel.
Import ListNotations.
Open Scope Z_scope.

Section P.
Context {Tok Src W E Inst R : Type}.
Variable c : config Tok Src W E Inst R.
Notation g := (cGrammar c).
Notation pstate := (pstate Tok Src W E Inst R).
Notation res := (res Tok Src W E Inst R).
Notation nodeRec := (nodeRec Tok Inst).
Notation branch := (branch Tok Inst).
Notation look := (Parser.look (Tok:=Tok) (Inst:=Inst)).
Notation findRules := (findRules (cType c) (cText c) (cUpper c) g).
Notation isSide := (isSide (cType c) g).
Hypothesis TO : tablesOk g.
Hypothesis NL : noIdleLoop g.

Definition states (l : list nodeRec) : list Z := map nState l.
(** 1 for a token that takes a part of the source *)
Definition real (t : option Tok) : nat := match t with Some t => if cType c t =? EoiTokenType then O else 1%nat | None => O end.

Lemma states_dryPop (l : list nodeRec) : states (dryPop l) = popZ (states l).
Proof. unfold states. induction l as [|n l IH]; cbn [dryPop map popZ]; auto. destruct (nState n =? FinalState); auto. Qed.

Lemma eoi_keys t key : cType c t = EoiTokenType -> tokenMatches (cType c) (cText c) (cUpper c) g t key -> key = AnyToken \/ key = EoiTokenType.
Proof.
  intros ET (keys & K & HI).
  assert (NG : forall d, zget (gTokens g) (cType c t) <> Some d).
  { intros d H. apply zget_Some_inv in H. rewrite ET in H. change EoiTokenType with (-3) in H. lia. }
  inversion K as [|t' NLF|t' i LF|t' i LF]; subst.
  - cbn in HI. rewrite ET in HI. intuition auto.
  - inversion LF. exfalso. eapply NG; eauto.
  - inversion LF. exfalso. eapply NG; eauto.
Qed.

(** A rule that does not use up a real token is a move that reads nothing. *)
Lemma silent n ls t r cons ls' : fits c (nState n) t r -> dryRule c t r (n :: ls) = Some (cons, ls') -> cons = false \/ real t = 0%nat ->
  sstep g (states (n :: ls)) (states ls').
Proof.
  intros [(tok & -> & SD & ->)|(NS & RO & NR & TM & TN)] HD HC.
  - exfalso. destruct SD as (tok' & X & d & Y & _). injection X as <-. apply zget_Some_inv in Y as [Y1 Y2].
    unfold dryRule in HD. cbn [rNode rToken rState] in HD.
    assert (TA : (cType c tok =? AnyToken) = false) by (apply Z.eqb_neq; unfold AnyToken; lia).
    rewrite TA in HD. cbn in HD. destruct HC as [->|HC]; [discriminate|].
    cbn [real] in HC. destruct (Z.eqb_spec (cType c tok) EoiTokenType) as [EE|EE]; [|discriminate]. change EoiTokenType with (-3) in EE. lia.
  - assert (SM : rNode r = SameNode -> readsNothing r).
    { intros SM. split; auto. destruct (Z.eq_dec (rToken r) AnyToken) as [A|A]; auto. right.
      destruct t as [tok|]; [|specialize (TN eq_refl); congruence]. unfold dryRule in HD. rewrite SM in HD. rewrite (proj2 (Z.eqb_neq _ _) A) in HD. cbn [SameNode Z.eqb Pos.eqb andb negb orb] in HD.
      assert (HE : cons = true) by (destruct (if rState r =? repeatState then _ else _); [|discriminate]; cbn [obind] in HD; congruence).
      destruct HC as [HC|HC]; [congruence|]. cbn [real] in HC. destruct (Z.eqb_spec (cType c tok) EoiTokenType) as [EE|EE]; [|discriminate].
      destruct (eoi_keys tok (rToken r)); auto. congruence. }
    unfold dryRule in HD. rewrite (proj2 (Z.eqb_neq _ _) NR) in HD.
    destruct (if rState r =? FinalState then _ else _) as [n1|] eqn:E1; [|discriminate]. cbn [obind] in HD.
    assert (N1 : nState n1 = rState r).
    { destruct (rState r =? FinalState); [injection E1 as <-; auto|]. destruct (zget (gStates g) (rState r)); [|discriminate]. injection E1 as <-. auto. }
    destruct (Z.eqb_spec (rNode r) SameNode) as [SN|SN].
    + cbn [obind] in HD. injection HD as _ HD. assert (EQ : ls' = dryPop (n1 :: ls)) by (rewrite <- HD; cbn [dryPop]; destruct (nState n1 =? FinalState); auto). rewrite EQ, states_dryPop. cbn [states map]. rewrite N1.
      exists r. apply MV_same; auto.
    + destruct (zget (gNodes g) (rNode r)) as [nt|] eqn:E2; [|discriminate]. cbn [obind] in HD.
      destruct (zget (gStates g) (gnFirst nt)) as [st|]; [|discriminate]. cbn [obind] in HD. injection HD as _ HD.
      match type of HD with (if _ then _ else ?l) = _ => assert (EQ : ls' = dryPop l) by (rewrite <- HD; cbn [dryPop nState]; destruct (gnFirst nt =? FinalState); auto) end.
      rewrite EQ, states_dryPop. cbn [states map nState]. rewrite N1. exists r. apply MV_push; auto. split; auto.
Qed.

(** ** Work to be done for one token and one branch *)
Inductive work (t : option Tok) : nat -> list nodeRec -> Prop :=
| WK_nil n : work t (S n) []
| WK_cons n n0 ns : (forall st rs, zget (gStates g) (nState n0) = Some st -> findRules t st = Some rs ->
     exists sz, length sz = length rs /\ (list_sum sz <= n)%nat /\
       forall i r k cons ls', nth_error rs i = Some r -> nth_error sz i = Some k -> dryRule c t r (n0 :: ns) = Some (cons, ls') -> cons = true \/ work t k ls') ->
   work t (S n) (n0 :: ns).
Lemma work_ex t : forall ls, exists n, work t n ls.
Proof.
  intros ls. remember (states ls) as x eqn:EX. revert ls EX. induction (sstep_wf g NL x) as [x _ IH]. intros ls ->.
  destruct ls as [|n0 ns]; [exists 1%nat; constructor|].
  destruct (zget (gStates g) (nState n0)) as [st|] eqn:ES; [|exists 1%nat; constructor; intros; congruence].
  destruct (findRules t st) as [rs|] eqn:EF; [|exists 1%nat; constructor; intros st' rs' X; rewrite ES in X; injection X as <-; congruence].
  assert (H : forall rs', (forall r, In r rs' -> In r rs) -> exists sz, length sz = length rs' /\
    forall i r k cons ls', nth_error rs' i = Some r -> nth_error sz i = Some k -> dryRule c t r (n0 :: ns) = Some (cons, ls') -> cons = true \/ work t k ls').
  { induction rs' as [|r rs' IHr]; intros HI; [exists []; split; auto; intros [|i]; discriminate|].
    destruct IHr as (sz & L & HZ); [intros; apply HI; right; auto|].
    assert (X : exists k, forall cons ls', dryRule c t r (n0 :: ns) = Some (cons, ls') -> cons = true \/ work t k ls').
    { destruct (dryRule c t r (n0 :: ns)) as [[[] ls']|] eqn:ED.
      - exists O. intros cons ls2 X. injection X as <- <-. auto.
      - destruct (IH (states ls')) with (ls := ls') as (k & HK); auto.
        + apply (silent n0 ns t r false ls'); auto. eapply findRules_fits; eauto. apply HI. left. auto.
        + exists k. intros cons ls2 X. injection X as <- <-. auto.
      - exists O. discriminate. }
    destruct X as (k & HK). exists (k :: sz). split; [cbn; lia|]. intros [|i] r' k' cons ls'; cbn [nth_error].
    - intros X Y. injection X as <-. injection Y as <-. auto.
    - eauto. }
  destruct (H rs (fun r X => X)) as (sz & L & HZ). exists (S (list_sum sz)). constructor. intros st' rs' X Y. rewrite ES in X. injection X as <-. rewrite EF in Y. injection Y as <-.
  exists sz. split; auto.
Qed.

Lemma NoDup_app_intro {A} (l m : list A) : NoDup l -> NoDup m -> (forall x, In x l -> ~ In x m) -> NoDup (l ++ m).
Proof.
  induction l as [|x l IH]; intros H1 H2 H3; auto. inversion H1 as [|? ? NI ND]; subst. cbn. constructor.
  - intros X. apply in_app_or in X as [X|X]; [auto|]. apply (H3 x); [left|]; auto.
  - apply IH; auto. intros y HY. apply H3. right. auto.
Qed.
Definition queued (t : option Tok) (store : list branch) (b n : nat) : Prop := exists br, nth_error store b = Some br /\ work t n (bStack br).
Lemma nth_error_upd_other {A} (l : list A) n x m : m <> n -> nth_error (upd l n x) m = nth_error l m.
Proof.
  intros NE. revert n m NE. induction l as [|y l IH]; intros n m NE; [destruct n; reflexivity|].
  destruct n, m; cbn; auto; try congruence.
Qed.
Lemma lookSplit_work t n0 ns br : bStack br = n0 :: ns -> forall ids rs sz k k' szq,
  length ids = length rs -> length sz = length rs ->
  (forall i r m cons ls', nth_error rs i = Some r -> nth_error sz i = Some m -> dryRule c t r (n0 :: ns) = Some (cons, ls') -> cons = true \/ work t m ls') ->
  (forall b, In b ids -> nth_error (kStore k) b = Some br) -> NoDup (kQueue k ++ ids) -> Forall2 (queued t (kStore k)) (kQueue k) szq ->
  lookSplit c t ids rs k = Some k' ->
  exists szq', NoDup (kQueue k') /\ Forall2 (queued t (kStore k')) (kQueue k') szq' /\ (list_sum szq' <= list_sum szq + list_sum sz)%nat.
Proof.
  intros EB. induction ids as [|b ids IH]; intros rs sz k k' szq L1 L2 HW HB ND FQ HS.
  - cbn in HS. injection HS as <-. exists szq. rewrite app_nil_r in ND. split; auto. split; auto. lia.
  - destruct rs as [|r rs]; [discriminate|]. destruct sz as [|m sz]; [discriminate|]. cbn [lookSplit] in HS. unfold lookApply in HS. rewrite (HB b (or_introl eq_refl)) in HS. cbn [obind] in HS. rewrite EB in HS.
    destruct (dryRule c t r (n0 :: ns)) as [[cons ls']|] eqn:ED; [|discriminate]. cbn [obind] in HS.
    assert (LT : (b < length (kStore k))%nat) by (apply nth_error_Some; rewrite (HB b (or_introl eq_refl)); discriminate).
    set (store := upd (kStore k) b (mkBranch ls' (bRules br ++ [r]))) in *.
    assert (NB : ~ In b (kQueue k) /\ ~ In b ids).
    { apply NoDup_remove_2 in ND. split; intros X; apply ND; apply in_or_app; auto. }
    assert (FQ' : Forall2 (queued t store) (kQueue k) szq).
    { clear - FQ NB. destruct NB as [NB _]. induction FQ as [|x y l m0 X Y IHq]; constructor.
      - destruct X as (br' & X1 & X2). exists br'. split; auto. unfold store. rewrite nth_error_upd_other; auto. intros ->. apply NB. left. auto.
      - apply IHq. intros Z1. apply NB. right. auto. }
    assert (HB' : forall x, In x ids -> nth_error store x = Some br).
    { intros x HX. unfold store. rewrite nth_error_upd_other; [apply HB; right; auto|]. intros ->. tauto. }
    assert (HW' : forall i r m cons ls', nth_error rs i = Some r -> nth_error sz i = Some m -> dryRule c t r (n0 :: ns) = Some (cons, ls') -> cons = true \/ work t m ls').
    { intros i. exact (HW (S i)). }
    assert (ND' : NoDup (kQueue k ++ ids)) by (apply NoDup_remove_1 in ND; auto).
    destruct (match ls' with [] => true | _ => false end || cons) eqn:EC.
    + assert (HS' : exists nx su, lookSplit c t ids rs (mkLook store nx (kQueue k) su (kError k)) = Some k') by (destruct cons; eauto).
      clear HS. destruct HS' as (nx & su & HS). destruct (IH rs sz (mkLook store nx (kQueue k) su (kError k)) k' szq) as (szq' & A & B & D); auto; try (cbn in *; lia).
      exists szq'. split; auto. split; auto. cbn [list_sum fold_right]. unfold list_sum in *. cbn [fold_right]. lia.
    + apply orb_false_iff in EC as [EC1 ->]. destruct (IH rs sz (mkLook store (kNext k) (kQueue k ++ [b]) (kSuccess k) (kError k)) k' (szq ++ [m])) as (szq' & A & B & D); auto; try (cbn in *; lia).
      * cbn [kQueue]. rewrite <- app_assoc. exact ND.
      * cbn [kQueue kStore]. apply Forall2_app; auto. constructor; auto. exists (mkBranch ls' (bRules br ++ [r])). split.
        -- unfold store. rewrite nth_error_upd; auto. rewrite Nat.eqb_refl. auto.
        -- destruct (HW O r m false ls' eq_refl eq_refl ED); [discriminate|auto].
      * exists szq'. split; auto. split; auto. rewrite list_sum_app in D. cbn [list_sum fold_right] in D. unfold list_sum in *. cbn [fold_right] in *. lia.
Qed.
Lemma Forall2_store t s1 s2 l m : (forall b br, nth_error s1 b = Some br -> nth_error s2 b = Some br) -> Forall2 (queued t s1) l m -> Forall2 (queued t s2) l m.
Proof. intros H F. induction F as [|x y l m (br & X1 & X2) F IH]; constructor; auto. exists br. auto. Qed.

Lemma lookBranch_halts t : forall fuel k szq, NoDup (kQueue k) -> Forall2 (queued t (kStore k)) (kQueue k) szq -> (list_sum szq < fuel)%nat ->
  lookBranch c fuel t k <> None.
Proof.
  induction fuel as [|f IH]; intros k szq ND FQ HF; [lia|]. cbn [lookBranch].
  destruct (kQueue k) as [|b q] eqn:EQ; [discriminate|]. inversion FQ as [|x m l szq' (br & E1 & WK) FQ']; subst. cbn [kStore kNext kQueue kSuccess kError]. rewrite E1.
  inversion ND as [|? ? NI ND']; subst. cbn [list_sum fold_right] in HF. unfold list_sum in *. cbn [fold_right] in HF.
  destruct (bStack br) as [|n0 ns] eqn:EB.
  - inversion WK; subst. eapply IH; eauto. lia.
  - destruct (zget (gStates g) (nState n0)) as [st|] eqn:ES; [|discriminate]. cbn [obind]. destruct (findRules t st) as [rs|] eqn:EF; [|discriminate].
    inversion WK as [|n n0' ns' HW]; subst. destruct (HW st rs ES EF) as (sz & L & SM & HW').
    destruct rs as [|r0 rs]; [eapply IH; eauto; lia|]. remember (r0 :: rs) as l eqn:El.
    destruct (lookSplit c t _ l _) as [k1|] eqn:E2; [|discriminate].
    assert (LT : forall x, In x q -> (x < length (kStore k))%nat).
    { intros x HX. clear - FQ' HX. induction FQ' as [|y m l szq (br & X1 & _) FQ' IH]; [destruct HX|]. destruct HX as [<-|HX]; auto. apply nth_error_Some. congruence. }
    assert (LB : (b < length (kStore k))%nat) by (apply nth_error_Some; congruence).
    apply (lookSplit_work t n0 ns br EB) with (sz := sz) (szq := szq') in E2; auto.
    + destruct E2 as (szq2 & A & B & D). eapply IH; eauto. unfold list_sum in *. lia.
    + cbn [length]. rewrite seq_length. subst l. cbn. lia.
    + cbn [kStore]. intros x [<-|HX].
      * rewrite nth_error_app1; auto.
      * apply in_seq in HX. rewrite nth_error_app2 by lia. apply nth_error_repeat. lia.
    + cbn [kQueue]. apply NoDup_app_intro; auto.
      * constructor; [|apply seq_NoDup]. intros HX. apply in_seq in HX. lia.
      * intros x HX [<-|HY]; [auto|]. apply in_seq in HY. specialize (LT x HX). lia.
    + cbn [kQueue kStore]. eapply Forall2_store; [|exact FQ']. intros x y HX. rewrite nth_error_app1; auto. apply nth_error_Some. congruence.
Qed.

Lemma lookRound_halts t : forall branches i k lost, exists N, forall f, (N <= f)%nat -> lookRound c f t i branches k lost <> None.
Proof.
  induction branches as [|b0 rest IH]; intros i k lost; [exists O; intros f _; discriminate|]. cbn [lookRound].
  destruct (match nth_error (kNext k) i with Some b => (b, true) | None => (b0, lost) end) as [b lost'].
  set (k0 := mkLook (kStore k) (kNext k) [b] (kSuccess k) (kError k)).
  assert (H : exists N, lookBranch c N t k0 <> None).
  { destruct (nth_error (kStore k) b) as [br|] eqn:EB.
    - destruct (work_ex t (bStack br)) as (n & HW). exists (S n). apply (lookBranch_halts t (S n) k0 [n]).
      + cbn. constructor; [intros []|constructor].
      + cbn. constructor; auto. exists br. auto.
      + cbn. lia.
    - exists 1%nat. cbn. rewrite EB. discriminate. }
  destruct H as (N & HN). destruct (lookBranch c N t k0) as [[k1|]|] eqn:EL; [| |congruence].
  - destruct (IH (S i) k1 lost') as (N2 & H2). exists (max N N2). intros f HF.
    destruct (le_lookBranch c t N f k0) as [H|H]; [lia|congruence|]. rewrite <- H, EL. apply H2. lia.
  - exists N. intros f HF. destruct (le_lookBranch c t N f k0) as [H|H]; [lia|congruence|]. rewrite <- H, EL. discriminate.
Qed.

(** ** Branches when nothing is read *)
Definition anyD (store : list branch) (d : nat) (b : nat) : Prop := forall br, nth_error store b = Some br -> depthLe g d (states (bStack br)).
Definition nextD (store : list branch) (d : nat) (b : nat) : Prop :=
  match d with O => False | S d' => exists br, nth_error store b = Some br /\ depthLe g d' (states (bStack br)) end.
Definition keepsD (d : nat) (s1 s2 : list branch) : Prop := forall b, (anyD s1 d b -> anyD s2 d b) /\ (nextD s1 d b -> nextD s2 d b).
Definition KD (d : nat) (k : look) : Prop := Forall (anyD (kStore k) d) (kQueue k) /\ Forall (nextD (kStore k) d) (kNext k).
Lemma keepsD_Forall d s1 s2 : keepsD d s1 s2 -> forall l, (Forall (anyD s1 d) l -> Forall (anyD s2 d) l) /\ (Forall (nextD s1 d) l -> Forall (nextD s2 d) l).
Proof. intros H l. split; apply Forall_impl; intros b; apply H. Qed.
Lemma keepsD_trans d s1 s2 s3 : keepsD d s1 s2 -> keepsD d s2 s3 -> keepsD d s1 s3.
Proof. intros A B b. destruct (A b), (B b). auto. Qed.
Lemma keepsD_upd d store b br : (b < length store)%nat -> depthLe g d (states (bStack br)) -> keepsD (S d) store (upd store b br).
Proof.
  intros LT HD x. destruct (Nat.eq_dec x b) as [->|NE].
  - split.
    + intros _ br'. rewrite nth_error_upd by auto. rewrite Nat.eqb_refl. intros X. injection X as <-. apply (depth_mono g d); [lia|auto].
    + intros _. exists br. rewrite nth_error_upd by auto. rewrite Nat.eqb_refl. auto.
  - unfold anyD, nextD. rewrite nth_error_upd_other by auto. auto.
Qed.
Lemma keepsD_app d store br n : depthLe g d (states (bStack br)) -> keepsD d store (store ++ repeat br n).
Proof.
  intros HD x. split.
  - intros HX br' H. destruct (Nat.lt_ge_cases x (length store)) as [LT|GE]; [rewrite nth_error_app1 in H; auto|].
    rewrite nth_error_app2 in H by auto. apply nth_error_In in H. apply repeat_spec in H. subst. auto.
  - destruct d; auto. intros (br' & X & Y). exists br'. split; auto. rewrite nth_error_app1; auto. apply nth_error_Some. congruence.
Qed.
Lemma lookSplit_depth t n0 ns br st l d : bStack br = n0 :: ns -> zget (gStates g) (nState n0) = Some st -> findRules t st = Some l -> real t = O ->
  depthLe g d (states (bStack br)) -> forall ids rs k k', (forall r, In r rs -> In r l) -> length ids = length rs ->
  (forall b, In b ids -> nth_error (kStore k) b = Some br) -> NoDup ids -> KD d k -> lookSplit c t ids rs k = Some k' ->
  KD d k' /\ keepsD d (kStore k) (kStore k').
Proof.
  intros EB ES EF RT HD. induction ids as [|b ids IH]; intros rs k k' HL L HB ND HK HS.
  - destruct rs; [|discriminate]. injection HS as <-. split; auto. intros x. auto.
  - destruct rs as [|r rs]; [discriminate|]. cbn [lookSplit] in HS. unfold lookApply in HS. rewrite (HB b (or_introl eq_refl)) in HS. cbn [obind] in HS. rewrite EB in HS.
    destruct (dryRule c t r (n0 :: ns)) as [[cons ls']|] eqn:ED; [|discriminate]. cbn [obind] in HS.
    assert (LT : (b < length (kStore k))%nat) by (apply nth_error_Some; rewrite (HB b (or_introl eq_refl)); discriminate).
    assert (ST : sstep g (states (n0 :: ns)) (states ls')).
    { eapply silent; [|exact ED|auto]. eapply findRules_fits; eauto. apply HL. left. auto. }
    destruct d as [|d]; [exfalso; rewrite EB in HD; exact (HD _ ST)|]. assert (HD' : depthLe g d (states ls')) by (rewrite EB in HD; exact (HD _ ST)).
    set (br' := mkBranch ls' (bRules br ++ [r])) in *. set (store := upd (kStore k) b br') in *.
    assert (KP : keepsD (S d) (kStore k) store) by (apply keepsD_upd; auto).
    inversion ND as [|? ? NI ND']; subst.
    assert (HB' : forall x, In x ids -> nth_error store x = Some br).
    { intros x HX. unfold store. rewrite nth_error_upd_other; [apply HB; right; auto|]. intros ->. auto. }
    assert (EBB : nth_error store b = Some br') by (unfold store; rewrite nth_error_upd by auto; rewrite Nat.eqb_refl; auto).
    assert (H : exists k1, lookSplit c t ids rs k1 = Some k' /\ kStore k1 = store /\ KD (S d) k1).
    { destruct HK as [HK1 HK2]. apply (proj1 (keepsD_Forall _ _ _ KP _)) in HK1. apply (proj2 (keepsD_Forall _ _ _ KP _)) in HK2.
      destruct (match ls' with [] => true | _ => false end || cons); [destruct cons|]; (eexists; split; [exact HS|]; split; [reflexivity|]; split; cbn [kStore kQueue kNext]); auto.
      - apply Forall_app. split; auto. constructor; auto. exists br'. auto.
      - apply Forall_app. split; auto. constructor; auto. intros x X. rewrite EBB in X. injection X as <-. apply (depth_mono g d); [lia|auto]. }
    destruct H as (k1 & H1 & H2 & H3). destruct (IH rs k1 k') as [A B]; auto.
    + intros r' X. apply HL. right. auto.
    + intros x HX. rewrite H2. auto.
    + split; auto. rewrite H2 in B. eapply keepsD_trans; eauto.
Qed.
Lemma lookBranch_depth t d : real t = O -> forall fuel k k', KD d k -> lookBranch c fuel t k = Some (Some k') ->
  KD d k' /\ keepsD d (kStore k) (kStore k').
Proof.
  intros RT. induction fuel as [|f IH]; intros k k' HK H; cbn [lookBranch] in H; [discriminate|].
  destruct (kQueue k) as [|b q] eqn:EQ; [injection H as <-; split; auto; intros x; auto|]. cbn [kStore kNext kQueue kSuccess kError] in H.
  destruct HK as [HK1 HK2]. rewrite EQ in HK1. pose proof (Forall_inv HK1) as HB. apply Forall_inv_tail in HK1.
  destruct (nth_error (kStore k) b) as [br|] eqn:EB; [|discriminate]. specialize (HB br EB).
  destruct (bStack br) as [|n0 ns] eqn:EN.
  - apply IH in H; [exact H|]. split; auto.
  - destruct (zget (gStates g) (nState n0)) as [st|] eqn:ES; [|discriminate]. cbn [obind] in H. destruct (findRules t st) as [rs|] eqn:EF; [|discriminate].
    destruct rs as [|r0 rs]; [apply IH in H; [exact H|split; auto]|]. remember (r0 :: rs) as l eqn:El.
    match type of H with match lookSplit c t ?ids l ?k0 with _ => _ end = _ => set (kk := k0) in *; set (idl := ids) in * end.
    destruct (lookSplit c t idl l kk) as [k1|] eqn:E1; [|discriminate].
    assert (LB : (b < length (kStore k))%nat) by (apply nth_error_Some; congruence).
    assert (KP : keepsD d (kStore k) (kStore kk)) by (apply keepsD_app; rewrite EN; auto).
    destruct (lookSplit_depth t n0 ns br st l d EN ES EF RT) with (ids := idl) (rs := l) (k := kk) (k' := k1) as [A B]; auto.
    + rewrite EN. auto.
    + unfold idl. cbn. rewrite seq_length. rewrite El. cbn. lia.
    + unfold idl, kk. cbn [kStore]. intros x [<-|HX].
      * rewrite nth_error_app1; auto.
      * apply in_seq in HX. rewrite nth_error_app2 by lia. apply nth_error_repeat. lia.
    + unfold idl. constructor; [|apply seq_NoDup]. intros HX. apply in_seq in HX. lia.
    + split; unfold kk; cbn [kQueue kNext kStore]; apply (keepsD_Forall _ _ _ KP); auto.
    + destruct (IH k1 k' A H) as [C D]. split; auto. eapply keepsD_trans; [exact KP|]. eapply keepsD_trans; eauto.
Qed.
Lemma lookRound_depth t d fuel : real t = O -> forall branches i k lost k' lost', Forall (anyD (kStore k) d) branches -> Forall (nextD (kStore k) d) (kNext k) ->
  lookRound c fuel t i branches k lost = Some (Some (k', lost')) -> Forall (nextD (kStore k') d) (kNext k').
Proof.
  intros RT. induction branches as [|b0 rest IH]; intros i k lost k' lost' HB HN H; cbn [lookRound] in H; [injection H as <- _; auto|].
  destruct (match nth_error (kNext k) i with Some b => (b, true) | None => (b0, lost) end) as [b lost1] eqn:EP.
  destruct (lookBranch c fuel t _) as [[k1|]|] eqn:EL; try discriminate.
  assert (AB : anyD (kStore k) d b).
  { destruct (nth_error (kNext k) i) as [b'|] eqn:EN; injection EP as <- <-; [|exact (Forall_inv HB)].
    apply nth_error_In in EN. rewrite Forall_forall in HN. specialize (HN _ EN). destruct d as [|d]; [destruct HN|]. destruct HN as (br & X & Y).
    intros br' X'. rewrite X in X'. injection X' as <-. apply (depth_mono g d); [lia|auto]. }
  apply (lookBranch_depth t d RT) in EL; [|split; cbn; auto]. destruct EL as [[A1 A2] B]. cbn [kStore] in B.
  eapply IH; [| |exact H]; auto. apply (keepsD_Forall _ _ _ B). exact (Forall_inv_tail HB).
Qed.

(** ** Reading tokens *)
Variable size : Src -> nat.
Hypothesis FS : finiteSource c size.
Hypothesis N0 : cTokenHooks c = [].
Definition left (s : pstate) : nat := (size (fst (pWorld s)) + list_sum (map real (pTokens s)))%nat.
Lemma nextLoop_left types : forall f s, match nextLoop c f types s with
  | Done t s' => (size (fst (pWorld s')) + real t <= size (fst (pWorld s)))%nat /\ pTokens s' = pTokens s
  | Fail _ s' => (size (fst (pWorld s')) <= size (fst (pWorld s)))%nat /\ pTokens s' = pTokens s | _ => True end.
Proof.
  induction f as [|f IH]; intros s; cbn [nextLoop]; auto. rewrite N0. cbn [pullToken].
  destruct (fetchToken c types (fst (pWorld s))) as [src [t e]] eqn:EF. pose proof (FS _ _ _ _ _ EF) as [F1 F2].
  destruct e as [e|]; cbn [ret bind]; [split; auto|].
  assert (RT : (size src + real t <= size (fst (pWorld s)))%nat).
  { destruct t as [t|]; cbn [real]; [|lia]. destruct (Z.eqb_spec (cType c t) EoiTokenType) as [X|X]; [lia|]. specialize (F2 t eq_refl X). lia. }
  destruct (_ && _); [split; auto|]. match goal with |- context [nextLoop c f types ?s1] => specialize (IH s1); destruct (nextLoop c f types s1) end; auto; cbn in *; intuition lia.
Qed.
Lemma nextLoop_halts types : forall n f s, (size (fst (pWorld s)) <= n)%nat -> (n < f)%nat -> forall s', nextLoop c f types s <> NoFuel s'.
Proof.
  induction n as [|n IH]; intros [|f] s HS HF s'; try lia; cbn [nextLoop]; rewrite N0; cbn [pullToken];
    destruct (fetchToken c types (fst (pWorld s))) as [src [t e]] eqn:EF; pose proof (FS _ _ _ _ _ EF) as [F1 F2];
    (destruct e as [e|]; cbn [ret bind]; [discriminate|]);
    match goal with |- (if ?b then _ else _) <> _ => destruct b eqn:EB end; try discriminate; apply andb_false_iff in EB as [EB|EB].
  all: assert (exists tok, t = Some tok /\ cType c tok <> EoiTokenType) as (tok & -> & NE);
    [destruct t as [tok|]; [exists tok; split; auto|exfalso; cbn in EB; rewrite ?orb_true_l in EB; discriminate]
    |specialize (F2 tok eq_refl NE); try lia].
  - apply negb_false_iff in EB. apply Z.eqb_eq in EB. rewrite EB. discriminate.
  - apply orb_false_iff in EB as [EB _]. apply negb_false_iff in EB. unfold isSideType in EB. intros X. rewrite X in EB. discriminate.
  - apply negb_false_iff in EB. apply Z.eqb_eq in EB. rewrite EB. discriminate.
  - apply IH; [cbn; lia|lia].
  - apply orb_false_iff in EB as [EB _]. apply negb_false_iff in EB. unfold isSideType in EB. intros X. rewrite X in EB. discriminate.
  - apply IH; [cbn; lia|lia].
Qed.
Lemma nextToken_left types f s : match nextToken c f types s with
  | Done t s' => (left s' + real t <= left s)%nat | Fail _ s' => (left s' <= left s)%nat | _ => True end.
Proof.
  unfold nextToken, left. destruct (pTokens s) as [|t r] eqn:ET.
  - pose proof (nextLoop_left types f s) as H. destruct (nextLoop c f types s); auto; destruct H as [H1 H2]; rewrite H2, ET; cbn; lia.
  - cbn [pTokens setTokens pWorld map]. change (list_sum (real t :: map real r)) with (real t + list_sum (map real r))%nat. lia.
Qed.
Lemma nextToken_halts types s : exists N, forall f, (N <= f)%nat -> forall s', nextToken c f types s <> NoFuel s'.
Proof. unfold nextToken. destruct (pTokens s); [|exists O; discriminate]. exists (S (size (fst (pWorld s)))). intros f HF s'. eapply nextLoop_halts; [apply Nat.le_refl|lia]. Qed.

(** A halting computation has a definite result. *)
Lemma settled {A} (m : nat -> res A) : (forall f f', (f <= f')%nat -> le (m f) (m f')) -> (exists N, forall f, (N <= f)%nat -> forall s, m f <> NoFuel s) ->
  exists N x, (forall s, x <> NoFuel s) /\ forall f, (N <= f)%nat -> m f = x.
Proof.
  intros HL (N & HN). exists N, (m N). split; [apply HN; auto|]. intros f HF. destruct (HL N f HF) as [(s & X)|X]; auto. destruct (HN N (le_n N) s X).
Qed.
Lemma settledRound t branches i k lost : exists N x, x <> None /\ forall f, (N <= f)%nat -> lookRound c f t i branches k lost = x.
Proof.
  destruct (lookRound_halts t branches i k lost) as (N & HN). exists N, (lookRound c N t i branches k lost). split; auto. intros f HF.
  destruct (le_lookRound c t N f HF branches i k lost) as [X|X]; auto. destruct (HN N (le_n N) X).
Qed.

Definition haltsLook (t : option Tok) tokens (k : look) (s : pstate) : Prop := exists N, forall f, (N <= f)%nat -> forall s', lookLoop c f t tokens k s <> NoFuel s'.
(** one round *)
Lemma lookLoop_round t tokens k s :
  (forall k1 lost t2 s2 f1 f2, lookRound c f1 t 0 (kNext k) (mkLook (kStore k) [] [] None (kError k)) (pLost s) = Some (Some (k1, lost)) -> (1 < length (kNext k1))%nat ->
     nextToken c f2 (lookTypes (kStore k1) (kNext k1)) (setLost s lost) = Done t2 s2 -> haltsLook t2 (tokens ++ [t]) k1 s2) ->
  haltsLook t tokens k s.
Proof.
  intros H. destruct (settledRound t (kNext k) 0 (mkLook (kStore k) [] [] None (kError k)) (pLost s)) as (N1 & x & NX & H1).
  destruct x as [[[k1 lost]|]|]; [| |congruence].
  2: { exists (S N1). intros [|f] HF s'; [lia|]. cbn [lookLoop]. rewrite H1 by lia. discriminate. }
  assert (FIN : forall s2 s' : pstate, match match kNext k1 with b :: _ => Some b | [] => match kSuccess k1 with Some b => Some b | None => kError k1 end end with
            | None => Panic | Some b => match nth_error (kStore k1) b with Some br => Done (tokens ++ [t], bRules br) s2 | None => Panic end end <> (NoFuel s' : res (list (option Tok) * list rule))).
  { intros s2 s'. destruct (match kNext k1 with b :: _ => Some b | [] => _ end); [|discriminate]. destruct (nth_error _ _); discriminate. }
  destruct (length (kNext k1) <=? 1)%nat eqn:EL.
  { exists (S N1). intros [|f] HF s'; [lia|]. cbn [lookLoop]. rewrite H1 by lia. rewrite EL. apply FIN. }
  destruct (lookTypes (kStore k1) (kNext k1) =? 0) eqn:ET.
  { exists (S N1). intros [|f] HF s'; [lia|]. cbn [lookLoop]. rewrite H1 by lia. rewrite EL, ET. apply FIN. }
  destruct (settled (fun f => nextToken c f (lookTypes (kStore k1) (kNext k1)) (setLost s lost)) (fun f f' => le_nextToken c _ f f' _) (nextToken_halts _ _)) as (N2 & y & NY & H2).
  destruct y as [t2 s2|e s2| |s2]; [| | |destruct (NY s2 eq_refl)].
  - destruct (H k1 lost t2 s2 N1 N2) as (N3 & H3); [apply H1; auto|apply Nat.leb_gt; auto|apply H2; auto|].
    exists (S (max N1 (max N2 N3))). intros [|f] HF s'; [lia|]. cbn [lookLoop]. rewrite H1 by lia. rewrite EL, ET. rewrite H2 by lia. apply H3. lia.
  - exists (S (max N1 N2)). intros [|f] HF s'; [lia|]. cbn [lookLoop]. rewrite H1 by lia. rewrite EL, ET. rewrite H2 by lia. apply FIN.
  - exists (S (max N1 N2)). intros [|f] HF s'; [lia|]. cbn [lookLoop]. rewrite H1 by lia. rewrite EL, ET. rewrite H2 by lia. discriminate.
Qed.
Lemma anyD_ex store : forall ids, exists d, Forall (anyD store d) ids.
Proof.
  induction ids as [|b ids (d & IH)]; [exists O; constructor|].
  assert (X : exists d', anyD store d' b).
  { unfold anyD. destruct (nth_error store b) as [br|]; [|exists O; discriminate]. destruct (depth_ex g NL (states (bStack br))) as (d' & HD). exists d'. intros br' Y. injection Y as <-. auto. }
  destruct X as (d' & HD). exists (d + d')%nat. constructor.
  - intros br Y. apply (depth_mono g d'); [lia|auto].
  - eapply Forall_impl; [|exact IH]. intros x HX br Y. apply (depth_mono g d); [lia|auto].
Qed.
Lemma real_le t : (real t <= 1)%nat.
Proof. destruct t as [t|]; cbn; auto. destruct (_ =? _); auto. Qed.
Lemma lookLoop_halts : forall m t tokens k s, (left s <= m)%nat -> haltsLook t tokens k s.
Proof.
  induction m as [m IH] using lt_wf_ind.
  assert (IN : forall d t tokens k s, real t = O -> (left s <= m)%nat -> Forall (anyD (kStore k) d) (kNext k) -> haltsLook t tokens k s).
  { induction d as [|d IHd]; intros t tokens k s RT HL HD; apply lookLoop_round; intros k1 lost t2 s2 f1 f2 E1 HN E2;
      (match type of HD with Forall (anyD _ ?dd) _ => apply (lookRound_depth t dd f1 RT) in E1; [|exact HD|constructor] end).
    - destruct (kNext k1); [cbn in HN; lia|]. apply Forall_inv in E1. destruct E1.
    - pose proof (nextToken_left (lookTypes (kStore k1) (kNext k1)) f2 (setLost s lost)) as LF. rewrite E2 in LF. change (left (setLost s lost)) with (left s) in LF.
      pose proof (real_le t2). destruct (real t2) eqn:R2.
      + apply IHd; [auto|lia|]. eapply Forall_impl; [|exact E1]. intros b (br & X & Y) br' X'. rewrite X in X'. injection X' as <-. auto.
      + apply (IH (left s2)); lia. }
  intros t tokens k s HL. apply lookLoop_round. intros k1 lost t2 s2 f1 f2 E1 HN E2.
  pose proof (nextToken_left (lookTypes (kStore k1) (kNext k1)) f2 (setLost s lost)) as LF. rewrite E2 in LF. change (left (setLost s lost)) with (left s) in LF.
  destruct (real t2) eqn:R2.
  - destruct (anyD_ex (kStore k1) (kNext k1)) as (d & HD). apply (IN d); auto. lia.
  - apply (IH (left s2)); lia.
Qed.

(** what is left after a lookahead, with the tokens looked at *)
Lemma lookLoop_left : forall f t tokens k s, match lookLoop c f t tokens k s with
  | Done x s' => (left s' + list_sum (map real (fst x)) <= left s + list_sum (map real (tokens ++ [t])))%nat
  | _ => True end.
Proof.
  induction f as [|f IH]; intros t tokens k s; cbn [lookLoop]; auto.
  destruct (lookRound c (S f) t 0 _ _ _) as [[[k1 lost]|]|]; auto.
  assert (FIN : forall s2 : pstate, (left s2 <= left s)%nat -> match match match kNext k1 with b :: _ => Some b | [] => match kSuccess k1 with Some b => Some b | None => kError k1 end end with
            | None => Panic | Some b => match nth_error (kStore k1) b with Some br => Done (tokens ++ [t], bRules br) s2 | None => Panic end end with
     | Done x s' => (left s' + list_sum (map real (fst x)) <= left s + list_sum (map real (tokens ++ [t])))%nat | _ => True end).
  { intros s2 HL. destruct (match kNext k1 with b :: _ => Some b | [] => _ end); auto. destruct (nth_error _ _); auto. cbn [fst]. lia. }
  destruct (_ <=? _)%nat; [apply FIN; auto|]. destruct (_ =? 0); [apply FIN; auto|].
  pose proof (nextToken_left (lookTypes (kStore k1) (kNext k1)) (S f) (setLost s lost)) as LF. change (left (setLost s lost)) with (left s) in LF.
  destruct (nextToken c (S f) _ _) as [t2 s2|e s2| |s2]; auto.
  2: apply FIN; auto.
  specialize (IH t2 (tokens ++ [t]) k1 s2). destruct (lookLoop c f t2 (tokens ++ [t]) k1 s2); auto.
  rewrite (map_app _ (tokens ++ [t])), list_sum_app in IH. cbn [map list_sum fold_right] in IH. unfold list_sum in *. cbn [fold_right] in IH. lia.
Qed.
End P.
