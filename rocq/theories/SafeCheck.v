(** A check that a grammar is well formed (ParserSafeSpec.grammarOk). *)
From Coq Require Import ZArith List Bool Lia Arith Sorted.
From Verif Require Import Base BaseProofs Grammar RulesSpec Prop_Rules Parser ParserSpec TablesCheck ParserSafeSpec.
Import ListNotations.
Open Scope Z_scope.

Section G.
Variable g : grammar.
Definition has {A} (l : list A) (i : Z) : bool := (0 <=? i) && (i <? zlen l).
Lemma has_ok {A} (l : list A) i : has l i = true -> exists x, zget l i = Some x.
Proof.
  unfold has. intros H. apply andb_true_iff in H as [H1 H2]. apply Z.leb_le in H1. apply Z.ltb_lt in H2.
  destruct (zget l i) as [x|] eqn:EZ; eauto. unfold zget in EZ. destruct (Z.ltb_spec i 0); [lia|]. apply nth_error_None in EZ. unfold zlen in H2. lia.
Qed.
Definition keysB (st : state) : list Z :=
  match zslice (gRules g) (sLow st) (sHigh st), zslice (gMultiRules g) (sLowMulti st) (sHighMulti st) with
  | Some rules, Some multi => map rToken rules ++ map mToken multi
  | _, _ => []
  end.
Definition namedB (st : state) : bool := existsb (Z.eqb AnyToken) (keysB st) || forallb (has (gTokens g)) (keysB st).
Definition grammarB : bool :=
  tablesB g && forallb (fun r => (rState r =? FinalState) || has (gStates g) (rState r)) (gRules g) &&
  forallb (fun r => (rNode r =? SameNode) || has (gNodes g) (rNode r)) (gRules g) &&
  forallb (fun nt => has (gStates g) (gnFirst nt)) (gNodes g) && has (gNodes g) RootNode && has (gTokens g) 0 && forallb namedB (gStates g).

Lemma grammarB_ok {Tok Src W E Inst R} (c : config Tok Src W E Inst R) : cGrammar c = g -> grammarB = true -> grammarOk c.
Proof.
  intros EG H. unfold grammarB in H. apply andb_true_iff in H as [H HNM]. apply andb_true_iff in H as [H HTK]. apply andb_true_iff in H as [H HRT].
  apply andb_true_iff in H as [H HFS]. apply andb_true_iff in H as [H HND]. apply andb_true_iff in H as [HTB HST].
  rewrite forallb_forall in HNM, HFS, HND, HST. pose proof (tablesB_ok g HTB) as TO. constructor; rewrite EG.
  - auto.
  - intros r HR. specialize (HST r HR). apply orb_true_iff in HST as [X|X]; [left; apply Z.eqb_eq; auto|right; apply has_ok; auto].
  - intros r HR. specialize (HND r HR). apply orb_true_iff in HND as [X|X]; [left; apply Z.eqb_eq; auto|right; apply has_ok; auto].
  - intros i nt HN. apply has_ok, HFS. eapply zget_In; eauto.
  - apply has_ok; auto.
  - intros X. rewrite X in HTK. discriminate.
  - intros i st HS. assert (HI : In st (gStates g)) by (eapply zget_In; eauto). specialize (HNM st HI). unfold namedB, keysB in HNM.
    destruct (proj2 TO i st HS) as (rules & multi & SO & SM). pose proof (so_rules _ _ _ _ SO) as E1. pose proof (so_multi _ _ _ _ SO) as E2. rewrite E1, E2 in HNM.
    apply orb_true_iff in HNM as [X|X].
    + left. apply existsb_exists in X as (k & X1 & X2). apply Z.eqb_eq in X2. subst k. apply in_app_or in X1 as [X1|X1]; apply in_map_iff in X1 as (y & Y1 & Y2).
      * exists y. split; auto. exists st, rules, multi, [y]. repeat split; auto; [|left; auto]. constructor; auto.
      * destruct (so_range _ _ _ _ SO y Y2) as (rs & ER & NR). destruct rs as [|r rs]; [congruence|].
        assert (RT : rToken r = mToken y) by (eapply SM; eauto; left; auto). exists r. split; [|congruence]. exists st, rules, multi, (r :: rs).
        split; auto. split; auto. split; auto. split; [|left; auto]. apply (HR_many _ _ _ _ y); auto.
    + right. rewrite forallb_forall in X. intros r (st' & rules' & multi' & rs' & A & B & C & D & F). rewrite HS in A. injection A as <-. rewrite E1 in B. injection B as <-. rewrite E2 in C. injection C as <-.
      apply has_ok, X. apply in_or_app. destruct D as [r' D1 D2|m rs D1 D2 D3].
      * left. rewrite <- D2. apply in_map. auto.
      * right. rewrite <- D2. apply in_map. auto.
Qed.
End G.
