(** Records are written unambiguously. *)
From Coq Require Import ZArith List Bool Lia.
From Verif Require Import Base Grammar LangBuild LangText LangDescSpec LangDescParse.
Import ListNotations.
Open Scope Z_scope.

Section U.
Variable Q : tok -> name -> Prop.
Hypothesis QK : forall t s, Q t s -> tKind t = KString.
Hypothesis QU : forall t s s', Q t s -> Q t s' -> s = s'.
Definition noOp (b : Z) (r : list tok) : Prop := forall r', r <> op b :: r'.
Ltac kinds := exfalso; repeat match goal with H : Q ?t _ |- _ => apply QK in H; cbn in H; try discriminate H end; try discriminate.
Lemma sp_unique :
  (forall ts x, spSeq Q ts x -> forall ts' x' r r', spSeq Q ts' x' -> noOp 44 r -> noOp 124 r -> noOp 44 r' -> noOp 124 r' -> ts ++ r = ts' ++ r' -> ts = ts' /\ x = x') /\
  (forall ts x, spItem Q ts x -> forall ts' x' r r', spItem Q ts' x' -> noOp 124 r -> noOp 124 r' -> ts ++ r = ts' ++ r' -> ts = ts' /\ x = x') /\
  (forall ts x, spVar Q ts x -> forall ts' x' r r', spVar Q ts' x' -> ts ++ r = ts' ++ r' -> ts = ts' /\ x = x').
Proof.
  assert (NE : forall b b' l, b <> b' -> noOp b (op b' :: l)) by (intros b b' l N r E; injection E as E _; congruence).
  apply sp_ind.
  - intros ts i SI IH ts' x' r r' S' N1 N2 N3 N4 E. inversion S' as [t2 i2 SI2|t2 i2 t3 l2 SI2 SS2]; subst.
    + destruct (IH _ _ _ _ SI2 N2 N4 E) as (-> & ->). auto.
    + rewrite <- app_assoc in E. cbn [app] in E. destruct (IH _ _ _ _ SI2 N2 (NE 124 44 _ ltac:(discriminate)) E) as (-> & ->). apply app_inv_head in E. destruct (N1 _ E).
  - intros ts i ts1 l SI IH SS IHS ts' x' r r' S' N1 N2 N3 N4 E. rewrite <- app_assoc in E. cbn [app] in E. inversion S' as [t2 i2 SI2|t2 i2 t3 l2 SI2 SS2]; subst.
    + destruct (IH _ _ _ _ SI2 (NE 124 44 _ ltac:(discriminate)) N4 E) as (-> & ->). apply app_inv_head in E. symmetry in E. destruct (N3 _ E).
    + rewrite <- app_assoc in E. cbn [app] in E. destruct (IH _ _ _ _ SI2 (NE 124 44 _ ltac:(discriminate)) (NE 124 44 _ ltac:(discriminate)) E) as (-> & ->). apply app_inv_head in E. injection E as E. destruct (IHS _ _ _ _ SS2 N1 N2 N3 N4 E) as (-> & ->). auto.
  - intros ts v SV IH ts' x' r r' S' N1 N2 E. inversion S' as [t2 i2 SI2|t2 i2 t3 l2 SI2 SS2]; subst.
    + destruct (IH _ _ _ _ SI2 E) as (-> & ->). auto.
    + rewrite <- app_assoc in E. cbn [app] in E. destruct (IH _ _ _ _ SI2 E) as (-> & ->). apply app_inv_head in E. destruct (N1 _ E).
  - intros ts i ts1 l SI IH SS IHS ts' x' r r' S' N1 N2 E. rewrite <- app_assoc in E. cbn [app] in E. inversion S' as [t2 i2 SI2|t2 i2 t3 l2 SI2 SS2]; subst.
    + destruct (IH _ _ _ _ SI2 E) as (-> & ->). apply app_inv_head in E. symmetry in E. destruct (N2 _ E).
    + rewrite <- app_assoc in E. cbn [app] in E. destruct (IH _ _ _ _ SI2 E) as (-> & ->). apply app_inv_head in E. injection E as E. destruct (IHS _ _ _ _ SS2 N1 N2 E) as (-> & ->). auto.
  - intros n ts' x' r r' S' E. inversion S' as [n'|n' NN| |t s QS|b t l SS]; subst; cbn in E; first [discriminate E|injection E as E1 E2|injection E as E2]; subst; try discriminate; auto; kinds.
  - intros n N ts' x' r r' S' E. inversion S' as [n'|n' NN| |t s QS|b t l SS]; subst; cbn in E; first [discriminate E|injection E as E1 E2|injection E as E2]; subst; try discriminate; auto; try (destruct N; reflexivity); kinds.
  - intros ts' x' r r' S' E. inversion S' as [n'|n' NN| |t s QS|b t l SS]; subst; cbn in E; first [discriminate E|injection E as E1 E2|injection E as E2]; subst; try discriminate; auto; try (destruct NN; reflexivity); kinds.
  - intros t s QS ts' x' r r' S' E. inversion S' as [n'|n' NN| |t' s' QS'|b t' l SS]; subst; cbn in E; first [discriminate E|injection E as E1 E2|injection E as E2]; subst; try (kinds; fail). rewrite (QU _ _ _ QS QS'). auto.
  - intros b ts l SS IH ts' x' r r' S' E. inversion S' as [n'|n' NN| |t' s' QS'|b' t' l' SS']; subst; cbn [app] in E; try (first [discriminate E|injection E as E1 E2]; subst; kinds; fail).
    assert (b = b') as <- by (destruct b, b'; try reflexivity; discriminate E). injection E as E. rewrite <- !app_assoc in E. cbn [app] in E. assert (C : forall z, In z [44; 124] -> forall r0, noOp z (closingOf b :: r0)) by (intros z Z0 r0; destruct Z0 as [<-|[<-|[]]]; destruct b; apply NE; discriminate).
    destruct (IH _ _ _ _ SS' (C 44 ltac:(cbn; auto) _) (C 124 ltac:(cbn; auto) _) (C 44 ltac:(cbn; auto) _) (C 124 ltac:(cbn; auto) _) E) as (-> & ->). auto.
Qed.
Lemma split_unique (P : tok -> Prop) s a b x y : ~ P s -> Forall P a -> Forall P b -> a ++ s :: x = b ++ s :: y -> a = b /\ x = y.
Proof.
  intros N F. revert b. induction F as [|t a Pt F IH]; intros b Fb E.
  - destruct b as [|t' b]; [injection E as E; auto|]. inversion Fb; subst. injection E as E _. subst. contradiction.
  - destruct b as [|t' b]; [injection E as E _; subst; contradiction|]. inversion Fb; subst. injection E as -> E. destruct (IH b) as (-> & ->); auto.
Qed.
Lemma F2_left {A B} (R : A -> B -> Prop) (P : A -> Prop) l m : (forall a b, R a b -> P a) -> Forall2 R l m -> Forall P l.
Proof. intros H. induction 1; constructor; eauto. Qed.
Lemma F2_unique {A B} (R : A -> B -> Prop) l m m' : (forall a b b', R a b -> R a b' -> b = b') -> Forall2 R l m -> Forall2 R l m' -> m = m'.
Proof. intros H F. revert m'. induction F; intros m' F'; inversion F'; subst; [reflexivity|]. f_equal; eauto. Qed.
Definition noSemi (t : tok) : Prop := tKind t <> KOp.
Lemma semi_not : ~ noSemi (op 59). Proof. intros H. apply H. reflexivity. Qed.
Lemma arg_noSemi d t a : spArg Q d t a -> noSemi t.
Proof. intros H. destruct H as [d n N|d t s O QS]; unfold noSemi; [discriminate|]. rewrite (QK _ _ QS). discriminate. Qed.
Lemma arg_unique d t a a' : spArg Q d t a -> spArg Q d t a' -> a = a'.
Proof. intros H H'. inversion H as [? n N|? ? s O QS]; subst; inversion H' as [? n' N'|? ? s' O' QS']; subst; try reflexivity; try (kinds; fail). rewrite (QU _ _ _ QS QS'). reflexivity. Qed.
Lemma part_noSemi t p : spPart t p -> noSemi t. Proof. intros H. destruct H; discriminate. Qed.
Lemma part_unique t p p' : spPart t p -> spPart t p' -> p = p'.
Proof. intros H H'. inversion H as [re E|n E]; subst; inversion H' as [re' E'|n' E']; subst; try reflexivity; try discriminate. apply app_inj_tail in E'. destruct E' as (-> & _). reflexivity. Qed.
Lemma larg_unique t a a' : spLArg Q t a -> spLArg Q t a' -> a = a'.
Proof. intros H H'. inversion H as [n|? s QS]; subst; inversion H' as [n'|? s' QS']; subst; try reflexivity; try (kinds; fail). apply (QU _ _ _ QS QS'). Qed.
Lemma args_unique : forall ts l, spArgs Q ts l -> forall ts' l' r r', spArgs Q ts' l' -> ts ++ op 41 :: r = ts' ++ op 41 :: r' -> ts = ts' /\ l = l'.
Proof.
  induction 1 as [t a LA|t a ts l LA SA IH]; intros ts' l' r r' H E; inversion H as [t' a' LA'|t' a' ts2 l2 LA' SA']; subst; cbn [app] in E.
  - injection E as -> _. rewrite (larg_unique _ _ _ LA LA'). auto.
  - injection E as -> E. discriminate E.
  - injection E as -> E. discriminate E.
  - injection E as -> E. destruct (IH _ _ _ _ SA' E) as (-> & ->). rewrite (larg_unique _ _ _ LA LA'). auto.
Qed.
Lemma larg_kind t a : spLArg Q t a -> tKind t <> KOp.
Proof. intros H. destruct H as [n|t s QS]; [discriminate|]. rewrite (QK _ _ QS). discriminate. Qed.
Lemma args_head ts l r : spArgs Q ts l -> forall x y, ts ++ r = op x :: y -> False.
Proof. intros H x y E. destruct H as [t a LA|t a ts l LA SA]; cbn in E; injection E as -> _; apply larg_kind in LA; apply LA; reflexivity. Qed.
Lemma command_unique ts x ts' x' r r' : spCommand Q ts x -> spCommand Q ts' x' -> ts ++ r = ts' ++ r' -> ts = ts' /\ x = x'.
Proof.
  intros H H' E. inversion H as [n|n t l SA]; subst; inversion H' as [n'|n' t' l' SA']; subst; cbn [app] in E; injection E as -> E.
  - auto.
  - rewrite <- app_assoc in E. symmetry in E. destruct (args_head _ _ _ SA' _ _ E).
  - rewrite <- app_assoc in E. destruct (args_head _ _ _ SA _ _ E).
  - rewrite <- !app_assoc in E. cbn [app] in E. destruct (args_unique _ _ SA _ _ _ _ SA' E) as (-> & ->). auto.
Qed.
Lemma commands_unique : forall ts l, spCommands Q ts l -> forall ts' l' r r', spCommands Q ts' l' -> ts ++ op 59 :: r = ts' ++ op 59 :: r' -> ts = ts' /\ l = l'.
Proof.
  assert (HD : forall ts x r y, spCommand Q ts x -> ts ++ r = op 59 :: y -> False) by (intros ts x r y H E; inversion H; subst; discriminate E).
  induction 1 as [|ts x ts1 l SC SS IH]; intros ts' l' r r' H E; inversion H as [|ts2 x2 ts3 l3 SC2 SS2]; subst; rewrite <- ?app_assoc in E.
  - auto.
  - symmetry in E. destruct (HD _ _ _ _ SC2 E).
  - destruct (HD _ _ _ _ SC E).
  - destruct (command_unique _ _ _ _ _ _ SC SC2 E) as (-> & ->). apply app_inv_head in E. destruct (IH _ _ _ _ SS2 E) as (-> & ->). auto.
Qed.
Lemma dirName_inj a b : dirName a = dirName b -> a = b.
Proof. destruct a, b; intros E; try reflexivity; discriminate E. Qed.
Lemma record_unique ts x ts' x' r r' : spRecord Q ts x -> spRecord Q ts' x' -> ts ++ r = ts' ++ r' -> ts = ts' /\ x = x'.
Proof.
  assert (SO : forall l l0, l ++ op 59 :: l0 = l ++ [op 59] ++ l0) by reflexivity.
  intros H H' E. inversion H as [d l args F|n l ps NE F|n l ps NN NE F|n l cs F|n l s F]; subst; inversion H' as [d' l' args' F'|n' l' ps' NE' F'|n' l' ps' NN' NE' F'|n' l' cs' F'|n' l' s' F']; subst; cbn [app] in E; try discriminate E.
  - injection E as E1 E2. apply dirName_inj in E1. subst d'. rewrite <- !app_assoc in E2. cbn [app] in E2. destruct (split_unique noSemi _ _ _ _ _ semi_not (F2_left _ noSemi _ _ (arg_noSemi d) F) (F2_left _ noSemi _ _ (arg_noSemi d) F') E2) as (-> & _). rewrite (F2_unique _ _ _ _ (arg_unique d) F F'). auto.
  - injection E as E1 E2. subst n'. rewrite <- !app_assoc in E2. cbn [app] in E2. destruct (split_unique noSemi _ _ _ _ _ semi_not (F2_left _ noSemi _ _ part_noSemi F) (F2_left _ noSemi _ _ part_noSemi F') E2) as (-> & _). rewrite (F2_unique _ _ _ _ part_unique F F'). auto.
  - injection E as E1 E2. subst n'. rewrite <- !app_assoc in E2. cbn [app] in E2. destruct (split_unique noSemi _ _ _ _ _ semi_not (F2_left _ noSemi _ _ part_noSemi F) (F2_left _ noSemi _ _ part_noSemi F') E2) as (-> & _). rewrite (F2_unique _ _ _ _ part_unique F F'). auto.
  - injection E as E1 E2. subst n'. rewrite <- !app_assoc in E2. cbn [app] in E2. destruct (commands_unique _ _ F _ _ _ _ F' E2) as (-> & ->). auto.
  - injection E as E1 E2. subst n'. rewrite <- !app_assoc in E2. cbn [app] in E2. destruct sp_unique as (SU & _). assert (ND : forall b z, b <> 59 -> noOp b (op 59 :: z)) by (intros b z NB r0 X; injection X as X _; congruence). destruct (SU _ _ F _ _ (op 59 :: r) (op 59 :: r') F' (ND 44 _ ltac:(discriminate)) (ND 124 _ ltac:(discriminate)) (ND 44 _ ltac:(discriminate)) (ND 124 _ ltac:(discriminate)) E2) as (-> & ->). auto.
Qed.
Lemma records_unique : forall ts l, spRecords Q ts l -> forall l', spRecords Q ts l' -> l = l'.
Proof.
  assert (NE : forall ts x, spRecord Q ts x -> ts <> []) by (intros ts x H; destruct H; discriminate).
  induction 1 as [|ts x ts1 l SR SS IH]; intros l' H.
  - inversion H as [|ts2 x2 ts3 l3 SR2 SS2]; [reflexivity|]. exfalso. apply (NE _ _ SR2). destruct ts2; [reflexivity|discriminate].
  - inversion H as [E|ts2 x2 ts3 l3 SR2 SS2 E]; subst.
    + exfalso. apply (NE _ _ SR). destruct ts; [reflexivity|discriminate].
    + destruct (record_unique _ _ _ _ _ _ SR2 SR E) as (-> & ->). apply app_inv_head in E. subst ts3. f_equal. apply IH, SS2.
Qed.
End U.
Lemma quoted_unique t s s' : quotedOf t s -> quotedOf t s' -> s = s'.
Proof. intros (q & _ & ->) (q' & _ & E). injection E as _ E. apply app_inj_tail in E. apply E. Qed.
Lemma quoted_kind t s : quotedOf t s -> tKind t = KString.
Proof. intros (q & _ & ->). reflexivity. Qed.
