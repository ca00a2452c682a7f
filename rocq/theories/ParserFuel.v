(** The result of a parse does not depend on the fuel, if there is enough of it. *)
From Coq Require Import ZArith List Bool Lia Arith.
From Verif Require Import Base BaseProofs Grammar Rules Parser.
Import ListNotations.
Open Scope Z_scope.

Section P.
Context {Tok Src W E Inst R : Type}.
Variable c : config Tok Src W E Inst R.
Notation g := (cGrammar c).
Notation pstate := (pstate Tok Src W E Inst R).
Notation res := (res Tok Src W E Inst R).

Definition le {A} (m m' : res A) : Prop := (exists s, m = NoFuel s) \/ m = m'.
Lemma le_refl {A} (m : res A) : le m m. Proof. right. auto. Qed.
Lemma le_bind {A B} (m m' : res A) (k k' : A -> pstate -> res B) : le m m' -> (forall a s, le (k a s) (k' a s)) -> le (bind m k) (bind m' k').
Proof. intros [(s & ->)| ->] HK; [left; eexists; reflexivity|]. destruct m'; cbn [bind]; try apply le_refl. apply HK. Qed.
Lemma le_bind1 {A B} (m : res A) (k k' : A -> pstate -> res B) : (forall a s, le (k a s) (k' a s)) -> le (bind m k) (bind m k').
Proof. intros. apply le_bind; auto. apply le_refl. Qed.
Lemma le_bind2 {A B} (m m' : res A) (k : A -> pstate -> res B) : le m m' -> le (bind m k) (bind m' k).
Proof. intros. apply le_bind; auto. intros; apply le_refl. Qed.

Lemma le_pullLoop pull pull' layer hooks : (forall s, le (pull s) (pull' s)) -> forall f f' s, (f <= f')%nat -> le (pullLoop c pull layer hooks f s) (pullLoop c pull' layer hooks f' s).
Proof.
  intros HP. induction f as [|f IH]; intros f' s HF; [left; eexists; reflexivity|]. destruct f' as [|f']; [lia|]. cbn [pullLoop].
  apply le_bind; auto. intros t s1. apply le_bind1. intros [emit extra] s2. apply le_bind1. intros _ s3.
  destruct emit; [apply le_refl|]. destruct (nth layer (pQueues s3) []); [|apply le_refl]. apply IH. lia.
Qed.
Lemma le_pullToken types f f' : (f <= f')%nat -> forall hs layer s, le (pullToken c f types hs layer s) (pullToken c f' types hs layer s).
Proof.
  intros HF. induction hs as [|hooks hs IH]; intros layer s; cbn [pullToken]; [apply le_refl|].
  destruct (nth layer (pQueues s) []); [|apply le_refl]. apply le_pullLoop; auto.
Qed.
Lemma le_nextLoop types : forall f f' s, (f <= f')%nat -> le (nextLoop c f types s) (nextLoop c f' types s).
Proof.
  induction f as [|f IH]; intros f' s HF; [left; eexists; reflexivity|]. destruct f' as [|f']; [lia|]. cbn [nextLoop].
  apply le_bind; [apply le_pullToken; lia|]. intros t s1. destruct (_ && _); [apply le_refl|]. apply IH. lia.
Qed.
Lemma le_nextToken types f f' s : (f <= f')%nat -> le (nextToken c f types s) (nextToken c f' types s).
Proof. intros. unfold nextToken. destruct (pTokens s); [apply le_nextLoop; auto|apply le_refl]. Qed.

Lemma le_lookBranch t : forall f f' k, (f <= f')%nat -> lookBranch c f t k = None \/ lookBranch c f t k = lookBranch c f' t k.
Proof.
  induction f as [|f IH]; intros f' k HF; [left; reflexivity|]. destruct f' as [|f']; [lia|]. cbn [lookBranch].
  destruct (kQueue k) as [|b q]; auto. cbn [kStore]. destruct (nth_error (kStore k) b) as [br|]; auto. destruct (bStack br) as [|n ls]; [apply IH; lia|].
  destruct (do st <- _ ; _) as [[|r rs]|]; auto; [apply IH; lia|]. destruct (lookSplit _ _ _ _ _) as [k1|]; auto. apply IH; lia.
Qed.
Lemma le_lookRound t f f' : (f <= f')%nat -> forall branches i k lost, lookRound c f t i branches k lost = None \/ lookRound c f t i branches k lost = lookRound c f' t i branches k lost.
Proof.
  intros HF. induction branches as [|b0 rest IH]; intros i k lost; cbn [lookRound]; auto. destruct (match nth_error (kNext k) i with Some b => (b, true) | None => (b0, lost) end) as [b l].
  destruct (le_lookBranch t f f' (mkLook (kStore k) (kNext k) [b] (kSuccess k) (kError k)) HF) as [H|H].
  - rewrite H. auto.
  - rewrite <- H. destruct (lookBranch c f t _) as [[k1|]|]; auto.
Qed.
Lemma le_lookLoop : forall f f' t tokens k s, (f <= f')%nat -> le (lookLoop c f t tokens k s) (lookLoop c f' t tokens k s).
Proof.
  induction f as [|f IH]; intros f' t tokens k s HF; [left; eexists; reflexivity|]. destruct f' as [|f']; [lia|]. cbn [lookLoop].
  destruct (le_lookRound t (S f) (S f') HF (kNext k) 0%nat (mkLook (kStore k) [] [] None (kError k)) (pLost s)) as [H|H].
  - rewrite H. left. eexists. reflexivity.
  - rewrite <- H. destruct (lookRound c (S f) t _ _ _ _) as [[[k1 lost]|]|]; try apply le_refl.
    destruct (length (kNext k1) <=? 1)%nat; [apply le_refl|]. destruct (lookTypes (kStore k1) (kNext k1) =? 0); [apply le_refl|].
    destruct (le_nextToken (lookTypes (kStore k1) (kNext k1)) (S f) (S f') (setLost s lost) HF) as [(s1 & ->)|E1].
    + left. eexists. reflexivity.
    + rewrite <- E1. destruct (nextToken c (S f) _ _); try apply le_refl. apply IH. lia.
Qed.
Lemma le_nextRule t st f f' s : (f <= f')%nat -> le (nextRule c f t st s) (nextRule c f' t st s).
Proof.
  intros HF. unfold nextRule. destruct (pApplied s); [|apply le_refl]. destruct (findRules _ _ _ _ _ _) as [[|r [|r' rs]]|]; try apply le_refl.
  apply le_bind2. unfold resolveConflict. destruct (pStack s); [apply le_refl|]. apply le_lookLoop. auto.
Qed.
Lemma le_syntaxError t st f f' s : (f <= f')%nat -> le (syntaxError c f t st s) (syntaxError c f' t st s).
Proof. intros HF. unfold syntaxError. apply le_bind2. destruct t; [apply le_refl|]. apply le_nextToken. auto. Qed.
Lemma le_parseLoop : forall f f' used t s, (f <= f')%nat -> le (parseLoop c f used t s) (parseLoop c f' used t s).
Proof.
  induction f as [|f IH]; intros f' used t s HF; [left; eexists; reflexivity|]. destruct f' as [|f']; [lia|]. cbn [parseLoop].
  destruct (pStack s) as [|n ns]; [apply le_refl|]. destruct used.
  - apply le_bind1. intros _ s1. apply le_bind; [apply le_nextToken; lia|]. intros t2 s2. apply IH. lia.
  - destruct (zget (gStates g) (nState n)) as [st|]; [|apply le_refl]. apply le_bind; [apply le_nextRule; lia|]. intros [r|] s1; [|apply le_syntaxError; lia].
    apply le_bind1. intros u s2. apply IH. lia.
Qed.
Lemma le_restLoop : forall f f' s, (f <= f')%nat -> le (restLoop c f s) (restLoop c f' s).
Proof.
  induction f as [|f IH]; intros f' s HF; [left; eexists; reflexivity|]. destruct f' as [|f']; [lia|]. cbn [restLoop].
  apply le_bind; [apply le_nextToken; lia|]. intros [t|] s1; [|apply le_refl]. destruct (_ =? _); [apply le_refl|]. destruct (isSideType _ _); [|apply le_refl]. apply IH. lia.
Qed.
Lemma le_parse f f' s : (f <= f')%nat -> le (parse c f s) (parse c f' s).
Proof.
  intros HF. unfold parse. apply le_bind; [apply le_parseLoop; auto|]. intros [used t] s1. destruct (if used then _ else _) as [s2|]; [|apply le_refl].
  apply le_bind2. destruct (_ && _); [|apply le_refl]. apply le_restLoop; auto.
Qed.
Lemma le_parseFrom f f' w t0 : (f <= f')%nat -> le (parseFrom c f w t0) (parseFrom c f' w t0).
Proof. intros HF. unfold parseFrom. apply le_bind1. intros _ s. apply le_parse. auto. Qed.
End P.
