(** A check that tables of a grammar are well formed. *)
From Coq Require Import ZArith List Bool Lia Arith Sorted.
From Verif Require Import Base BaseProofs Grammar RulesSpec Parser ParserSpec.
Import ListNotations.
Open Scope Z_scope.

Fixpoint ascending (l : list Z) : bool :=
  match l with
  | [] => true
  | x :: r => forallb (fun y => x <? y) r && ascending r
  end.
Lemma ascending_ok l : ascending l = true -> StronglySorted Z.lt l.
Proof.
  induction l as [|x l IH]; intros H; constructor; cbn in H; apply andb_true_iff in H as [H1 H2]; auto.
  rewrite forallb_forall in H1. apply Forall_forall. intros y HY. apply Z.ltb_lt. auto.
Qed.

Section G.
Variable g : grammar.
Definition rangeOk (m : multiRule) : bool :=
  match zslice (gRules g) (mLow m) (mHigh m) with
  | Some (r :: rs) => forallb (fun r => rToken r =? mToken m) (r :: rs)
  | _ => false
  end.
Definition stateB (st : state) : bool :=
  match zslice (gRules g) (sLow st) (sHigh st), zslice (gMultiRules g) (sLowMulti st) (sHighMulti st) with
  | Some rules, Some multi =>
      ascending (map rToken rules) && ascending (map mToken multi) && forallb rangeOk multi &&
      forallb (fun r => forallb (fun m => negb (rToken r =? mToken m)) multi) rules
  | _, _ => false
  end.
Definition tablesB : bool := forallb (fun r => FinalState <=? rState r) (gRules g) && forallb stateB (gStates g).

Lemma tablesB_ok : tablesB = true -> tablesOk g.
Proof.
  unfold tablesB. intros H. apply andb_true_iff in H as [H1 H2]. rewrite forallb_forall in H1, H2. split.
  { intros r HR. apply Z.leb_le. auto. }
  intros i st HZ. assert (HI : In st (gStates g)) by (unfold zget in HZ; destruct (_ <? _); [discriminate|]; eapply nth_error_In; eauto).
  specialize (H2 st HI). unfold stateB in H2.
  destruct (zslice (gRules g) (sLow st) (sHigh st)) as [rules|] eqn:E1; [|discriminate].
  destruct (zslice (gMultiRules g) (sLowMulti st) (sHighMulti st)) as [multi|] eqn:E2; [|discriminate].
  apply andb_true_iff in H2 as [H2 H6]. apply andb_true_iff in H2 as [H2 H5]. apply andb_true_iff in H2 as [H3 H4].
  rewrite forallb_forall in H5, H6. exists rules, multi. split; [constructor; auto using ascending_ok|].
  - intros m HM. specialize (H5 m HM). unfold rangeOk in H5. destruct (zslice (gRules g) (mLow m) (mHigh m)) as [[|r rs]|]; try discriminate.
    eexists. split; [reflexivity|discriminate].
  - intros r m HR HM HE. specialize (H6 r HR). rewrite forallb_forall in H6. specialize (H6 m HM). rewrite HE, Z.eqb_refl in H6. discriminate.
  - intros m rs r HM HS HR. specialize (H5 m HM). unfold rangeOk in H5. rewrite HS in H5. destruct rs as [|r0 rs]; [discriminate|].
    rewrite forallb_forall in H5. apply Z.eqb_eq. auto.
Qed.
End G.
