(** A check that definitions are LL(1): sets of tokens that nodes begin with and that come after them are computed, then used. *)
From Coq Require Import ZArith List Bool Lia.
From Verif Require Import Base BaseProofs Grammar LangBuild LangSpec LangProofs LangFrame LangComplete LangSound LangNodes LangNodesSpec LangFirst LangLLSpec LangLL.
Import ListNotations.
Open Scope Z_scope.

Definition memB (x : Z) (l : list Z) : bool := existsb (Z.eqb x) l.
Lemma memB_In x l : memB x l = true <-> In x l.
Proof. unfold memB. rewrite existsb_exists. split; [intros (y & Y & E); apply Z.eqb_eq in E; congruence|intros I0; exists x; split; [exact I0|apply Z.eqb_refl]]. Qed.
Definition inclB (a b : list Z) : bool := forallb (fun x => memB x b) a.
Lemma inclB_ok a b : inclB a b = true -> incl a b.
Proof. unfold inclB. rewrite forallb_forall. intros H x X. apply memB_In, H, X. Qed.

Lemma app_split {A} (w v' v z : list A) (x : A) : w ++ v' = v ++ x :: z -> (exists z1, w = v ++ x :: z1 /\ z = z1 ++ v') \/ (exists v1, v = w ++ v1 /\ v' = v1 ++ x :: z).
Proof.
  revert v. induction w as [|y w IH]; intros v E; cbn [app] in E.
  - right. exists v. auto.
  - destruct v as [|y' v]; cbn [app] in E.
    + injection E as -> <-. left. exists w. auto.
    + injection E as <- E. destruct (IH v E) as [(z1 & -> & ->)|(v1 & -> & ->)]; [left; exists z1; auto|right; exists v1; auto].
Qed.

Section C.
Variable defs : list (option chunk).
Variable conf : Z -> Z -> bool.
Notation clash := (fun k k' => conf k k' = true).
(** sets of tokens: what nodes begin with, what follows them *)
Variables F W : list (list Z).
Notation of S i := (firstsOf S i).

Fixpoint firstC (c : chunk) : list Z :=
  match c with
  | CTok t => [t]
  | CEoi => [EoiToken]
  | CNode i => of F i
  | CVar l => flat_map firstC l
  | CGroup _ _ l => (fix go (l : list chunk) := match l with [] => [] | c :: l' => firstC c ++ (if isOptional c then go l' else []) end) l
  end.
Fixpoint firstS (l : list chunk) : list Z := match l with [] => [] | c :: l' => firstC c ++ (if isOptional c then firstS l' else []) end.
Definition after (l : list chunk) (A : list Z) : list Z := firstS l ++ (if forallb isOptional l then A else []).
Definition around (rep : bool) (l : list chunk) (A : list Z) : list Z := A ++ (if rep then firstS l else []).
(** pairs of a node and the tokens that may come after it *)
Fixpoint flowC (A : list Z) (c : chunk) : list (Z * list Z) :=
  match c with
  | CTok _ | CEoi => []
  | CNode i => [(i, A)]
  | CVar l => flat_map (flowC A) l
  | CGroup _ rep l =>
      (fix go (A : list Z) (l : list chunk) := match l with [] => [] | c :: l' => flowC (after l' A) c ++ go A l' end) (around rep l A) l
  end.
Fixpoint flowS (A : list Z) (l : list chunk) : list (Z * list Z) := match l with [] => [] | c :: l' => flowC (after l' A) c ++ flowS A l' end.
Definition apartB (a b : list Z) : bool := forallb (fun x => forallb (fun y => negb (conf x y)) b) a.
Fixpoint pairsB (l : list (list Z)) : bool := match l with [] => true | a :: l' => forallb (apartB a) l' && pairsB l' end.
Fixpoint decidedB (A : list Z) (c : chunk) : bool :=
  match c with
  | CTok _ | CEoi | CNode _ => true
  | CVar l => forallb (decidedB A) l && pairsB (map firstC l) && (negb (existsb isOptional l) || apartB (flat_map firstC l) A)
  | CGroup opt rep l =>
      (negb opt || apartB (firstS l) A) &&
      (fix go (A : list Z) (l : list chunk) := match l with [] => true | c :: l' => decidedB (after l' A) c && go A l' end) (around rep l A) l
  end.
Fixpoint decidedS (A : list Z) (l : list chunk) : bool := match l with [] => true | c :: l' => decidedB (after l' A) c && decidedS A l' end.
Lemma firstC_group opt rep l : firstC (CGroup opt rep l) = firstS l.
Proof. cbn [firstC]. induction l as [|c l IH]; [reflexivity|]. cbn [firstS]. rewrite <- IH. reflexivity. Qed.
Lemma flowC_group A opt rep l : flowC A (CGroup opt rep l) = flowS (around rep l A) l.
Proof. cbn [flowC]. generalize (around rep l A). intros B. induction l as [|c l IH]; [reflexivity|]. cbn [flowS]. rewrite <- IH. reflexivity. Qed.
Lemma decidedB_group A opt rep l : decidedB A (CGroup opt rep l) = (negb opt || apartB (firstS l) A) && decidedS (around rep l A) l.
Proof. reflexivity. Qed.

Definition firstsOk : bool := forallb (fun i => match zget defs i with Some (Some d) => inclB (firstC d) (of F i) | _ => true end) (indexes (length defs)).
Definition followsOk : bool := forallb (fun i => match zget defs i with Some (Some d) => forallb (fun '(j, a) => inclB a (of W j)) (flowC (of W i) d) | _ => true end) (indexes (length defs)).
Definition decisionsOk : bool := forallb (fun i => match zget defs i with Some (Some d) => decidedB (of W i) d | _ => true end) (indexes (length defs)).
Lemma all_defs (f : Z -> chunk -> bool) : forallb (fun i => match zget defs i with Some (Some d) => f i d | _ => true end) (indexes (length defs)) = true -> forall i d, defined defs i d -> f i d = true.
Proof.
  rewrite forallb_forall. intros H i d D. unfold defined in D. specialize (H i). rewrite D in H. apply H. apply indexes_In. eapply zget_Some_inv, D.
Qed.

(** ** What nodes begin with *)
Hypothesis FO : firstsOk = true.
Lemma first_heads : (forall c w, stringOf c w -> forall x w', w = x :: w' -> forall k, (match x with STok t => k = t | SEoi => k = EoiToken | SNode j _ => In k (of F j) end) -> In k (firstC c)) /\
  (forall l w, derivesSeq (fun _ _ : Z => True) l w -> forall x w', w = x :: w' -> forall k, (match x with STok t => k = t | SEoi => k = EoiToken | SNode j _ => In k (of F j) end) -> In k (firstS l)).
Proof.
  apply (derives_both (fun _ _ : Z => True)).
  - intros t x w' [= <- <-] k ->. left. reflexivity.
  - intros x w' [= <- <-] k ->. left. reflexivity.
  - intros i t _ x w' [= <- <-] k K. exact K.
  - intros l c w C _ IH x w' E k K. cbn [firstC]. apply in_flat_map. exists c. split; [exact C|eapply IH; eassumption].
  - intros opt rep l w _ IH x w' E k K. rewrite firstC_group. eapply IH; eassumption.
  - discriminate.
  - intros opt l w v D IH _ IH' x w' E k K. destruct w as [|y w]; [eapply IH'; eassumption|]. injection E as -> E. rewrite firstC_group. eapply IH; [reflexivity|exact K].
  - discriminate.
  - intros c l w v D IH D' IH' x w' E k K. cbn [firstS]. apply in_app_iff. destruct w as [|y w]; cbn [app] in E.
    + right. rewrite (chunk_empty _ _ D). eapply IH'; eassumption.
    + injection E as -> E. left. eapply IH; [reflexivity|exact K].
Qed.
Lemma first_sound i k : firstToken defs i k -> In k (of F i).
Proof.
  assert (X : forall i d, defined defs i d -> incl (firstC d) (of F i)). { intros j d D. apply inclB_ok. apply (all_defs (fun i d => inclB (firstC d) (of F i)) FO j d D). }
  induction 1 as [i d t w G S|i d w G S|i d j u w t G S FT IH]; apply (X i d G); (eapply (proj1 first_heads); [exact S|reflexivity|]); [reflexivity|reflexivity|exact IH].
Qed.
Lemma opens_in x k : opens defs x k -> match x with STok t => k = t | SEoi => k = EoiToken | SNode j _ => In k (of F j) end.
Proof. destruct x; cbn [opens]; auto. apply first_sound. Qed.
Lemma begins_in c k : begins defs c k -> In k (firstC c).
Proof. intros (x & w & D & O). eapply (proj1 first_heads); [exact D|reflexivity|apply opens_in, O]. Qed.
Lemma begins_seq l k : begins defs (sequence l) k -> In k (firstS l).
Proof. intros H. apply begins_in in H. unfold sequence in H. rewrite firstC_group in H. exact H. Qed.

(** ** What comes after nodes *)
Definition flows (fl : list (Z * list Z)) : Prop := forall i a, In (i, a) fl -> incl a (of W i).
Lemma flow_sound : (forall c w, stringOf c w -> forall A, flows (flowC A c) -> forall v i u z, w = v ++ SNode i u :: z -> match z with [] => incl A (of W i) | x :: _ => forall k, opens defs x k -> In k (of W i) end) /\
  (forall l w, derivesSeq (fun _ _ : Z => True) l w -> forall A, flows (flowS A l) -> forall v i u z, w = v ++ SNode i u :: z -> match z with [] => incl A (of W i) | x :: _ => forall k, opens defs x k -> In k (of W i) end).
Proof.
  apply (derives_both (fun _ _ : Z => True)).
  - intros t A FL [|y v] i u z E; [discriminate E|]. injection E as _ E. destruct v; discriminate E.
  - intros A FL [|y v] i u z E; [discriminate E|]. injection E as _ E. destruct v; discriminate E.
  - intros i t _ A FL [|y v] j u z E; [|injection E as _ E; destruct v; discriminate E]. injection E as <- <- <-. apply FL. left. reflexivity.
  - intros l c w C _ IH A FL. apply IH. intros i a I0. apply FL. cbn [flowC]. apply in_flat_map. eauto.
  - intros opt rep l w _ IH A FL v i u z E. rewrite flowC_group in FL. specialize (IH _ FL v i u z E). destruct z; [|exact IH]. intros k K. apply IH, in_app_iff. left. exact K.
  - intros rep l A FL [|y v] i u z E; discriminate E.
  - intros opt l w v' D IH D' IH' A FL v i u z E. pose proof FL as FL'. rewrite flowC_group in FL'. specialize (IH _ FL').
    destruct (app_split _ _ _ _ _ E) as [(z1 & -> & ->)|(v1 & -> & ->)]; [|apply (IH' A FL v1 i u z eq_refl)].
    specialize (IH v i u z1 eq_refl). destruct z1 as [|x z1]; [|exact IH]. cbn [app]. destruct v' as [|x v']; [intros k K; apply IH, in_app_iff; left; exact K|].
    intros k K. apply IH, in_app_iff. right. assert (BG : begins defs (CGroup opt true l) k) by (exists x, v'; auto). apply begins_in in BG. rewrite firstC_group in BG. exact BG.
  - intros A FL [|y v] i u z E; discriminate E.
  - intros c l w v' D IH D' IH' A FL v i u z E. cbn [flowS] in FL.
    destruct (app_split _ _ _ _ _ E) as [(z1 & -> & ->)|(v1 & -> & ->)].
    + specialize (IH (after l A) (fun j a I0 => FL j a (proj2 (in_app_iff _ _ _) (or_introl I0))) v i u z1 eq_refl). destruct z1 as [|x z1]; [|exact IH]. cbn [app]. destruct v' as [|x v'].
      * intros k K. apply IH, in_app_iff. right. rewrite (seq_empty _ _ D'). exact K.
      * intros k K. apply IH, in_app_iff. left. apply begins_seq. exists x, v'. split; [apply D_once, D'|exact K].
    + apply (IH' A (fun j a I0 => FL j a (proj2 (in_app_iff _ _ _) (or_intror I0))) v1 i u z eq_refl).
Qed.
Hypothesis WO : followsOk = true.
Lemma follows_sound i k : follows defs i k -> In k (of W i).
Proof.
  assert (X : forall j d, defined defs j d -> flows (flowC (of W j) d)).
  { intros j d D i0 a I0. apply inclB_ok. pose proof (all_defs (fun i d => forallb (fun '(j, a) => inclB a (of W j)) (flowC (of W i) d)) WO j d D) as H. cbn beta in H. rewrite forallb_forall in H. apply (H (i0, a) I0). }
  induction 1 as [j d v i u x w k G S O|j d v i u k G S FL IH].
  - exact (proj1 flow_sound _ _ S _ (X j d G) v i u (x :: w) eq_refl k O).
  - exact (proj1 flow_sound _ _ S _ (X j d G) v i u [] eq_refl k IH).
Qed.

(** ** Decisions *)
Lemma apartB_ok a b : apartB a b = true -> forall X Y : Z -> Prop, (forall k, X k -> In k a) -> (forall k, Y k -> In k b) -> apart clash X Y.
Proof. unfold apartB. rewrite forallb_forall. intros H X Y HX HY k k' K K' C. specialize (H k (HX k K)). rewrite forallb_forall in H. specialize (H k' (HY k' K')). cbn beta in C. rewrite C in H. discriminate. Qed.
Lemma pairsB_ok l : pairsB (map firstC l) = true -> ForallOrdPairs (fun c c' => apart clash (begins defs c) (begins defs c')) l.
Proof.
  induction l as [|c l IH]; intros H; [constructor|]. cbn [map pairsB] in H. apply andb_true_iff in H. destruct H as (H1 & H2). constructor; [|apply IH, H2].
  rewrite Forall_forall. intros c' C. rewrite forallb_forall in H1. eapply apartB_ok; [apply H1, in_map, C|apply begins_in|apply begins_in].
Qed.
Lemma after_ok l a (A : Z -> Prop) : (forall c, In c l -> written c) -> (forall k, A k -> In k a) -> forall k, begins defs (sequence l) k \/ mayOmit (sequence l) /\ A k -> In k (after l a).
Proof. intros WR H k [B|(O & K)]; apply in_app_iff; [left; apply begins_seq, B|right]. apply omits_iff in O; [|exact WR]. rewrite O. apply H, K. Qed.
Lemma decided_sound c : written c -> forall a (A : Z -> Prop), decidedB a c = true -> (forall k, A k -> In k a) -> decided defs clash A c.
Proof.
  induction c as [t| |i|opt rep l IH|l IH] using chunk_nest; intros WR a A H S; try constructor.
  - intros ->. rewrite decidedB_group in H. apply andb_true_iff in H. destruct H as (H & _). cbn [negb orb] in H. eapply apartB_ok; [exact H|apply begins_seq|exact S].
  - rewrite decidedB_group in H. apply andb_true_iff in H. destruct H as (_ & H).
    assert (S' : forall k, A k \/ rep = true /\ begins defs (sequence l) k -> In k (around rep l a)).
    { intros k [K|(-> & K)]; apply in_app_iff; [left; apply S, K|right; apply begins_seq, K]. }
    assert (WL : forall c, In c l -> written c) by (inversion WR; subst; auto).
    assert (X : forall (B : Z -> Prop) b, (forall k, B k -> In k b) -> decidedS b l = true -> decidedSeq defs clash B l).
    { clear - FO WO IH WL. intros B b S' H. revert IH WL H. induction l as [|c l IL]; intros IH WL H; [constructor|]. cbn [decidedS] in H. apply andb_true_iff in H. destruct H as (H1 & H2). constructor.
      + eapply (IH c (or_introl eq_refl)); [apply WL; left; reflexivity|exact H1|]. apply after_ok; [intros c' C; apply WL; right; exact C|exact S'].
      + apply IL; [intros c' C; apply IH; right; exact C|intros c' C; apply WL; right; exact C|exact H2]. }
    eapply X; [exact S'|exact H].
  - cbn [decidedB] in H. apply andb_true_iff in H. destruct H as (H & _). apply andb_true_iff in H. destruct H as (H & _). rewrite forallb_forall in H. intros c C. apply (IH c C) with (a := a); [inversion WR; subst; auto|apply H, C|exact S].
  - cbn [decidedB] in H. apply andb_true_iff in H. destruct H as (H & _). apply andb_true_iff in H. destruct H as (_ & H). apply pairsB_ok, H.
  - intros c c' C C' O. cbn [decidedB] in H. apply andb_true_iff in H. destruct H as (_ & H). apply orb_true_iff in H. destruct H as [H|H].
    + exfalso. apply negb_true_iff in H. rewrite <- not_true_iff_false, existsb_exists in H. apply H. exists c. split; [exact C|]. apply omit_iff, O. inversion WR; subst; auto.
    + eapply apartB_ok; [exact H| |exact S]. intros k K. apply in_flat_map. exists c'. split; [exact C'|apply begins_in, K].
Qed.
Theorem decisions_checked : (forall i d, defined defs i d -> written d) -> decisionsOk = true -> ll1 defs clash.
Proof. intros WR H i d D. eapply decided_sound; [eapply WR, D|apply (all_defs (fun i d => decidedB (of W i) d) H i d D)|]. intros k K. apply follows_sound, K. Qed.
End C.

(** ** Sets *)
Section S.
Variable defs : list (option chunk).
Definition growFirsts (F : list (list Z)) : list (list Z) := map (fun '(o, s) => match o with Some d => sunion s (firstC F d) | None => s end) (combine defs F).
Definition growFollows (F W : list (list Z)) : list (list Z) :=
  fold_left (fun W i => match zget defs i with Some (Some d) => fold_left (fun W '(j, a) => match zset W j (sunion (firstsOf W j) a) with Some W' => W' | None => W end) (flowC F (firstsOf W i) d) W | _ => W end)
    (indexes (length defs)) W.
Definition empties : list (list Z) := map (fun _ => []) defs.
Fixpoint times {A} (n : nat) (f : A -> A) (x : A) : A := match n with O => x | S n' => times n' f (f x) end.
(** The check; [n] bounds the number of rounds. *)
Definition ll1B (conf : Z -> Z -> bool) (n : nat) : bool :=
  let F := times n growFirsts empties in
  let W := times n (growFollows F) empties in
  firstsOk defs F && followsOk defs F W && decisionsOk defs conf F W.
Theorem ll1_checked conf n : (forall i d, defined defs i d -> written d) -> ll1B conf n = true -> ll1 defs (fun k k' => conf k k' = true).
Proof. intros WR H. apply andb_true_iff in H. destruct H as (H & H3). apply andb_true_iff in H. destruct H as (H1 & H2). exact (decisions_checked defs conf _ _ H1 H2 WR H3). Qed.
End S.
