(** Results of the checks of node definitions do not depend on the number of steps: more steps change nothing but [Stuck]. *)
From Coq Require Import ZArith List Bool Lia.
From Verif Require Import Base Grammar LangBuild LangNodes LangTypes LangCompile.
Import ListNotations.
Open Scope Z_scope.

Definition leO {A} (m m' : outcome A) : Prop := m = Stuck \/ m' = m.
Lemma leO_refl {A} (m : outcome A) : leO m m.
Proof. right. reflexivity. Qed.
Lemma leO_obnd {A B} (m m' : outcome A) (f f' : A -> outcome B) : leO m m' -> (forall x, leO (f x) (f' x)) -> leO (obnd m f) (obnd m' f').
Proof. intros [->| ->] H; [left; reflexivity|]. destruct m; cbn; [apply H|apply leO_refl..]. Qed.

Lemma le_reach items : forall f f' q u, (f <= f')%nat -> leO (reachLoop f items q u) (reachLoop f' items q u).
Proof.
  induction f as [|f IH]; intros f' q u L; [left; reflexivity|]. destruct f' as [|f']; [lia|]. cbn [reachLoop]. destruct q as [|i q]; [apply leO_refl|].
  destruct (negb _); [apply IH; lia|]. destruct (zget items i); [apply IH; lia|apply leO_refl].
Qed.
Lemma le_resolve affects : forall f f' q items, (f <= f')%nat -> leO (resolveLoop f affects q items) (resolveLoop f' affects q items).
Proof.
  induction f as [|f IH]; intros f' q items L; [left; reflexivity|]. destruct f' as [|f']; [lia|]. cbn [resolveLoop]. destruct q as [|k q]; [apply leO_refl|].
  apply leO_obnd; [apply leO_refl|]. intros (it, q'). apply IH. lia.
Qed.
Lemma le_first idx : forall f f' items, (f <= f')%nat -> leO (firstLoop f idx items) (firstLoop f' idx items).
Proof.
  induction f as [|f IH]; intros f' items L; [left; reflexivity|]. destruct f' as [|f']; [lia|]. cbn [firstLoop]. apply leO_obnd; [apply leO_refl|]. intros (it, [|]); [apply IH; lia|apply leO_refl].
Qed.
Lemma le_recursive fs states : forall f f' i v, (f <= f')%nat -> leO (ntIsRecursive f fs states i v) (ntIsRecursive f' fs states i v).
Proof.
  induction f as [|f IH]; intros f' i v L; [left; reflexivity|]. destruct f' as [|f']; [lia|]. cbn [ntIsRecursive]. apply leO_obnd; [apply leO_refl|]. intros first. apply leO_obnd; [apply leO_refl|]. intros st.
  generalize (allRules st). induction l as [|r l IL]; [apply leO_refl|]. destruct (rNode r =? SameNode); [exact IL|]. destruct (smem _ _); [apply leO_refl|]. apply leO_obnd; [apply IH; lia|]. intros [|]; [apply leO_refl|exact IL].
Qed.
Lemma le_check f f' o1 o2 o3 defs : (f <= f')%nat -> leO (checkNodes f o1 o2 o3 defs) (checkNodes f' o1 o2 o3 defs).
Proof.
  intros L. unfold checkNodes. cbv zeta. apply leO_obnd; [apply leO_refl|]. intros _. apply leO_obnd; [unfold findUnusedNodes; apply leO_obnd; [apply le_reach, L|intros; apply leO_refl]|]. intros _.
  apply leO_obnd.
  { unfold resolveDependencies. apply leO_obnd; [apply leO_refl|]. intros ((it, af), q). apply leO_obnd; [apply le_resolve, L|]. intros it'. cbv zeta. destruct (filter _ o3); [apply leO_refl|].
    apply leO_obnd; [apply le_first, L|intros; apply leO_refl]. }
  intros it. apply leO_obnd; [apply leO_refl|]. intros cs. apply leO_obnd; [apply leO_refl|]. intros (fs, p). apply leO_obnd; [|intros; apply leO_refl].
  unfold findRecursions. apply leO_obnd; [|intros; apply leO_refl]. generalize (indexes (length fs)). induction l as [|i l IL]; [apply leO_refl|]. cbn [recursiveNodes]. apply leO_obnd; [apply le_recursive, L|]. intros b.
  apply leO_obnd; [exact IL|]. intros; apply leO_refl.
Qed.
Lemma le_compile fm up f f' o1 o2 o3 tokens layers names defs : (f <= f')%nat ->
  compileDescription fm up f o1 o2 o3 tokens layers names defs = Endless \/ compileDescription fm up f' o1 o2 o3 tokens layers names defs = compileDescription fm up f o1 o2 o3 tokens layers names defs.
Proof.
  intros L. unfold compileDescription. destruct (tokenTypes fm up tokens) as [[tt|n]|]; auto. destruct (le_check f f' o1 o2 o3 defs L) as [->| ->]; auto.
Qed.
