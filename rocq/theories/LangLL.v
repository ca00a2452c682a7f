(** States made for LL(1) definitions: the next token tells which rule to take. *)
From Coq Require Import ZArith List Bool Lia.
From Verif Require Import Base BaseProofs Grammar LangBuild LangSpec LangProofs LangFrame LangComplete LangSound LangShare LangNodesSpec LangLLSpec.
Import ListNotations.
Open Scope Z_scope.

Section LL.
Variable defs : list (option chunk).
Variable clash : Z -> Z -> Prop.
Hypothesis CR : forall k, clash k k.
Hypothesis CS : forall k k', clash k k' -> clash k' k.
Notation B := (begins defs).
Notation Bs l := (begins defs (sequence l)).
Notation anyStart := (fun _ _ : Z => True).
Notation apart := (apart clash).
Notation decided := (decided defs clash).
Notation decidedSeq := (decidedSeq defs clash).
Notation follows := (follows defs).

(** ** First tokens *)
Lemma omit_iff c : written c -> (mayOmit c <-> isOptional c = true).
Proof. intros W. split; [apply chunk_empty|apply optional_derives, W]. Qed.
Lemma seq_strings l w : stringOf (sequence l) w <-> derivesSeq anyStart l w.
Proof. split; [intros D; inversion D; subst; assumption|intros D; apply D_once, D]. Qed.
Lemma omits_iff l : (forall c, In c l -> written c) -> (mayOmit (sequence l) <-> forallb isOptional l = true).
Proof. intros W. unfold mayOmit. rewrite seq_strings. split; [apply seq_empty|apply optionals_derive, W]. Qed.
Lemma some c : written c -> exists w, stringOf c w.
Proof. apply derives_some. intros i. exists 0. exact I. Qed.
Lemma somes l : (forall c, In c l -> written c) -> exists w, derivesSeq anyStart l w.
Proof. apply derivesSeq_some. intros i. exists 0. exact I. Qed.

Lemma B_token t k : B (CTok t) k <-> k = t.
Proof.
  split.
  - intros (x & w & D & O). inversion D; subst. exact O.
  - intros ->. exists (STok t), []. split; [constructor|reflexivity].
Qed.
Lemma B_nested i k : B (CNode i) k <-> firstToken defs i k.
Proof.
  split.
  - intros (x & w & D & O). inversion D; subst. exact O.
  - intros F. exists (SNode i 0), []. split; [constructor; exact I|exact F].
Qed.
Lemma B_variant l k : B (CVar l) k <-> exists c, In c l /\ B c k.
Proof.
  split.
  - intros (x & w & D & O). inversion D as [| | |? c ? C DC| | |]; subst. exists c. split; [exact C|]. exists x, w. auto.
  - intros (c & C & x & w & D & O). exists x, w. split; [eapply D_variant; eassumption|exact O].
Qed.
Lemma B_nil k : ~ Bs [] k.
Proof. intros (x & w & D & _). apply seq_strings in D. inversion D. Qed.
Lemma B_group opt rep l k : B (CGroup opt rep l) k <-> Bs l k.
Proof.
  split.
  - intros (x & w & D & O).
    assert (X : forall c v, stringOf c v -> c = CGroup opt rep l -> v = x :: w -> exists w', derivesSeq anyStart l (x :: w')).
    { clear - O. intros c v D. revert w. induction D as [| | | |opt' rep' l' v DS|rep' l'|opt' l' v v' DS DV IH]; intros w' E EV; try discriminate.
      - injection E as -> -> ->. subst. exists w'. exact DS.
      - injection E as -> <- ->. destruct v as [|y v]; cbn [app] in EV.
        + apply (IH w'); [reflexivity|exact EV].
        + injection EV as -> <-. exists v. exact DS. }
    destruct (X _ _ D eq_refl eq_refl) as (w' & D'). exists x, w'. split; [apply D_once, D'|exact O].
  - intros (x & w & D & O). apply seq_strings in D. exists x, w. split; [apply D_once, D|exact O].
Qed.
Lemma B_cons c l k : written c -> (forall c', In c' l -> written c') -> (Bs (c :: l) k <-> B c k \/ isOptional c = true /\ Bs l k).
Proof.
  intros W WL. split.
  - intros (x & w & D & O). apply seq_strings in D. inversion D as [|? ? w1 w2 D1 D2 E]; subst. destruct w1 as [|y w1]; cbn [app] in *.
    + right. split; [eapply chunk_empty, D1|]. subst. exists x, w. split; [apply D_once, D2|exact O].
    + left. match goal with E : _ :: _ = _ :: _ |- _ => injection E as -> _ end. exists x, w1. auto.
  - intros [(x & w & D & O)|(OC & x & w & D & O)].
    + destruct (somes l WL) as (v & V). exists x, (w ++ v). split; [|exact O]. apply D_once. apply (DS_cons _ c l (x :: w) v D V).
    + exists x, w. split; [|exact O]. apply D_once. apply seq_strings in D. apply (DS_cons _ c l [] (x :: w)); [apply optional_derives; assumption|exact D].
Qed.

Definition sub (X Y : Z -> Prop) : Prop := forall k, X k -> Y k.
Lemma apart_sub X Y X' Y' : sub X' X -> sub Y' Y -> apart X Y -> apart X' Y'.
Proof. intros H1 H2 A k k' K K'. apply A; auto. Qed.
Lemma apart_sym X Y : apart X Y -> apart Y X.
Proof. intros A k k' K K' C. apply (A k' k K' K), CS, C. Qed.

(** after a part of a sequence *)
Definition nextOf (l : list chunk) (A : Z -> Prop) : Z -> Prop := fun k => Bs l k \/ forallb isOptional l = true /\ A k.
Lemma nextOf_iff l A k : (forall c, In c l -> written c) -> (nextOf l A k <-> Bs l k \/ mayOmit (sequence l) /\ A k).
Proof. intros W. unfold nextOf. rewrite (omits_iff l W). reflexivity. Qed.

Scheme decided_mut := Minimality for LangLLSpec.decided Sort Prop
with decidedSeq_mut := Minimality for LangLLSpec.decidedSeq Sort Prop.
Combined Scheme decided_both from decided_mut, decidedSeq_mut.

(** What may be omitted does not begin with what comes after. *)
Lemma omit_apart :
  (forall A c, decided A c -> written c -> isOptional c = true -> apart (B c) A) /\
  (forall A l, decidedSeq A l -> (forall c, In c l -> written c) -> forallb isOptional l = true -> apart (Bs l) A).
Proof.
  apply decided_both.
  - discriminate.
  - discriminate.
  - discriminate.
  - intros A l _ _ _ OM W O k k' K K'. inversion W as [| | |? NE WL|]; subst. cbn [isOptional] in O. apply existsb_exists in O as (c & C & O).
    apply B_variant in K as (c' & C' & K). apply (OM c c' C C'); [apply omit_iff; auto|exact K|exact K'].
  - intros A opt rep l AP DS IH W O. inversion W as [| | | |? ? ? NE RO WL]; subst.
    apply (apart_sub (Bs l) A); [intros k K; apply B_group in K; exact K|intros k K; exact K|].
    destruct opt; [apply AP; reflexivity|]. cbn [isOptional orb] in O. apply (apart_sub (Bs l) (fun k => A k \/ rep = true /\ Bs l k)); [intros k K; exact K|intros k K; auto|]. apply IH; assumption.
  - intros A _ _ k k' K. destruct (B_nil _ K).
  - intros A c l _ IH1 _ IH2 W O k k' K K'. cbn [forallb] in O. apply andb_true_iff in O as (O1 & O2).
    assert (WL : forall c', In c' l -> written c') by (intros c' C; apply W; right; exact C).
    apply B_cons in K; [|apply W; left; reflexivity|exact WL]. destruct K as [K|(_ & K)].
    + apply (IH1 (W c (or_introl eq_refl)) O1 k k' K). right. split; [apply omits_iff; assumption|exact K'].
    + apply (IH2 WL O2 k k' K K').
Qed.

(** The first token tells the first symbol. *)
Definition sameSym (x y : sym) : Prop := match x, y with STok t, STok t' => t = t' | SEoi, SEoi => True | SNode i _, SNode j _ => i = j | _, _ => False end.
Lemma ordPairs {A} (P : A -> A -> Prop) (l : list A) : ForallOrdPairs P l -> forall x y, In x l -> In y l -> x = y \/ P x y \/ P y x.
Proof. intros F x y X Y. destruct (ForallOrdPairs_In F x y X Y) as [H|[H|H]]; auto. Qed.
Lemma one_head :
  (forall A c, decided A c -> written c -> forall x w x' w' k k', stringOf c (x :: w) -> stringOf c (x' :: w') -> opens defs x k -> opens defs x' k' -> clash k k' -> sameSym x x') /\
  (forall A l, decidedSeq A l -> (forall c, In c l -> written c) ->
     forall x w x' w' k k', derivesSeq anyStart l (x :: w) -> derivesSeq anyStart l (x' :: w') -> opens defs x k -> opens defs x' k' -> clash k k' -> sameSym x x').
Proof.
  apply decided_both.
  - intros A t _ x w x' w' k k' D D'. inversion D; inversion D'; subst. reflexivity.
  - intros A _ x w x' w' k k' D D'. inversion D; inversion D'; subst. exact (fun _ _ _ => I).
  - intros A i _ x w x' w' k k' D D'. inversion D; inversion D'; subst. reflexivity.
  - intros A l _ IH OP _ W x w x' w' k k' D D' O O' CL. inversion W as [| | |? NE WL|]; subst. inversion D as [| | |? c ? C DC| | |]; subst. inversion D' as [| | |? c' ? C' DC'| | |]; subst.
    destruct (ordPairs _ _ OP c c' C C') as [->|[AP|AP]].
    + eapply (IH c' C' (WL c' C')); eassumption.
    + destruct (AP k k'); [exists x, w; auto|exists x', w'; auto|exact CL].
    + destruct (AP k' k); [exists x', w'; auto|exists x, w; auto|apply CS, CL].
  - intros A opt rep l AP DS IH W x w x' w' k k' D D' O O' CL. inversion W as [| | | |? ? ? NE RO WL]; subst.
    assert (X : forall y v kk, stringOf (CGroup opt rep l) (y :: v) -> opens defs y kk -> exists v', derivesSeq anyStart l (y :: v')).
    { clear. intros y v kk D O. remember (CGroup opt rep l) as c eqn:E. remember (y :: v) as vv eqn:EV. revert v E EV.
      induction D as [| | | |opt' rep' l' v DS|rep' l'|opt' l' v v' DS DV IH]; intros w' E EV; try discriminate.
      - injection E as -> -> ->. subst. exists w'. exact DS.
      - injection E as -> <- ->. destruct v as [|z v]; cbn [app] in EV.
        + apply (IH w'); [reflexivity|exact EV].
        + injection EV as -> <-. exists v. exact DS. }
    destruct (X x w k D O) as (v & V). destruct (X x' w' k' D' O') as (v' & V'). eapply (IH WL); eassumption.
  - intros A _ x w x' w' k k' D. inversion D.
  - intros A c l D1 IH1 D2 IH2 W x w x' w' k k' D D' O O' CL. pose proof (W c (or_introl eq_refl)) as Wc.
    assert (WL : forall c', In c' l -> written c') by (intros c' C; apply W; right; exact C).
    assert (X : forall y v, derivesSeq anyStart (c :: l) (y :: v) -> (exists v', stringOf c (y :: v')) \/ isOptional c = true /\ exists v', derivesSeq anyStart l (y :: v')).
    { intros y v H. inversion H as [|? ? w1 w2 H1 H2 E]; subst. destruct w1 as [|z w1]; cbn [app] in *.
      - right. split; [eapply chunk_empty, H1|]. subst. eauto.
      - left. match goal with E : _ :: _ = _ :: _ |- _ => injection E as -> _ end. eauto. }
    destruct (X x w D) as [(v & V)|(OC & v & V)]; destruct (X x' w' D') as [(v' & V')|(OC' & v' & V')].
    + eapply (IH1 Wc); eassumption.
    + exfalso. apply (proj1 omit_apart _ _ D1 Wc OC' k k'); [exists x, v; auto| |exact CL]. left. exists x', v'. split; [apply D_once, V'|exact O'].
    + exfalso. apply (proj1 omit_apart _ _ D1 Wc OC k' k); [exists x', v'; auto| |apply CS, CL]. left. exists x, v. split; [apply D_once, V|exact O].
    + eapply (IH2 WL); eassumption.
Qed.

Hypothesis LL : ll1 defs clash.
Hypothesis WD : forall i d, defined defs i d -> written d.
Lemma defined_one i d d' : defined defs i d -> defined defs i d' -> d = d'.
Proof. unfold defined. intros G G'. rewrite G in G'. injection G' as ->. reflexivity. Qed.
Lemma first_one i k : firstToken defs i k -> forall k', firstToken defs i k' -> clash k k' -> k = k'.
Proof.
  induction 1 as [i d t w G S|i d w G S|i d j u w t G S F IH]; intros k' F' CL.
  - assert (X : forall x' w', stringOf d (x' :: w') -> opens defs x' k' -> sameSym (STok t) x') by (intros x' w' S' O'; eapply (proj1 one_head _ _ (LL i d G) (WD i d G)); [exact S|exact S'|reflexivity|exact O'|exact CL]).
    inversion F' as [? d' t' w' G' S'|? d' w' G' S'|? d' j' u' w' t' G' S' F'']; subst; rewrite <- (defined_one _ _ _ G G') in S'.
    + apply (X _ _ S'). reflexivity.
    + destruct (X _ _ S' eq_refl).
    + destruct (X _ _ S' F'').
  - assert (X : forall x' w', stringOf d (x' :: w') -> opens defs x' k' -> sameSym SEoi x') by (intros x' w' S' O'; eapply (proj1 one_head _ _ (LL i d G) (WD i d G)); [exact S|exact S'|reflexivity|exact O'|exact CL]).
    inversion F' as [? d' t' w' G' S'|? d' w' G' S'|? d' j' u' w' t' G' S' F'']; subst; rewrite <- (defined_one _ _ _ G G') in S'.
    + destruct (X _ _ S' eq_refl).
    + reflexivity.
    + destruct (X _ _ S' F'').
  - assert (X : forall x' w', stringOf d (x' :: w') -> opens defs x' k' -> sameSym (SNode j u) x') by (intros x' w' S' O'; eapply (proj1 one_head _ _ (LL i d G) (WD i d G)); [exact S|exact S'|exact F|exact O'|exact CL]).
    inversion F' as [? d' t' w' G' S'|? d' w' G' S'|? d' j' u' w' t' G' S' F'']; subst; rewrite <- (defined_one _ _ _ G G') in S'.
    + destruct (X _ _ S' eq_refl).
    + destruct (X _ _ S' eq_refl).
    + pose proof (X _ _ S' F'') as E. cbn [sameSym] in E. subst j'. apply IH; assumption.
Qed.
End LL.
