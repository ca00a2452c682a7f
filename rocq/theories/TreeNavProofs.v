From Coq Require Import ZArith List Bool Arith Lia.
From Verif Require Import Base BaseProofs Tree TreeSpec TreeProofs TreeNav TreeNavSpec.
Import ListNotations.
Open Scope nat_scope.

Section RInd.
Variable P : rtree -> Prop.
Hypothesis H : forall x ts, Forall P ts -> P (RT x ts).
Fixpoint rtree_ind' (t : rtree) : P t :=
  match t with
  | RT x ts => H x ts ((fix go (l : list rtree) : Forall P l :=
      match l with [] => Forall_nil _ | s :: r => Forall_cons _ (rtree_ind' s) (go r) end) ts)
  end.
End RInd.

Lemma is_tree_eq F x ts : is_tree F (RT x ts) <-> kids F x = map root ts /\ Forall (is_tree F) ts.
Proof.
  cbn [is_tree]. assert (E : forall l, (fix all (l : list rtree) : Prop := match l with [] => True | s :: r => is_tree F s /\ all r end) l <-> Forall (is_tree F) l).
  { induction l as [|s r IH]; [split; constructor|]. rewrite IH. split; [intros []; constructor; auto|].
    intros A; inversion A; auto. }
  rewrite E. reflexivity.
Qed.

Lemma tree_exists F x : well_founded (fun x p => In x (kids F p)) -> exists t, root t = x /\ is_tree F t.
Proof.
  intros WF. induction (WF x) as [x _ IH].
  assert (G : forall l, (forall y, In y l -> exists t, root t = y /\ is_tree F t) -> exists ts, map root ts = l /\ Forall (is_tree F) ts).
  { induction l as [|y l IHl]; intros HL; [exists []; auto|].
    destruct (HL y) as (t & <- & T); [left; auto|]. destruct IHl as (ts & <- & TS); [intros; apply HL; right; auto|].
    exists (t :: ts). split; auto. }
  destruct (G (kids F x) IH) as (ts & E & TS). exists (RT x ts). split; auto. apply is_tree_eq. auto.
Qed.
Lemma trees_exist F l : well_founded (fun x p => In x (kids F p)) -> exists ts, map root ts = l /\ Forall (is_tree F) ts.
Proof.
  intros WF. induction l as [|y l (ts & <- & TS)]; [exists []; auto|].
  destruct (tree_exists F y WF) as (t & <- & T). exists (t :: ts). auto.
Qed.

Lemma tree_unique F t : forall t', is_tree F t -> is_tree F t' -> root t = root t' -> t = t'.
Proof.
  induction t as [x ts IH] using rtree_ind'. intros [x' ts'] A B E. cbn in E. subst x'.
  apply is_tree_eq in A. apply is_tree_eq in B. destruct A as [A1 A2], B as [B1 B2].
  rewrite A1 in B1. f_equal. clear A1. revert ts' B1 B2. induction ts as [|t ts IHts]; intros [|t' ts'] B1 B2; try discriminate; auto.
  cbn in B1. injection B1 as E1 E2. inversion IH; inversion A2; inversion B2; subst. f_equal; auto.
Qed.

Lemma in_pre_reach F t : is_tree F t -> forall y, In y (pre t) <-> reach F (root t) y.
Proof.
  induction t as [x ts IH] using rtree_ind'. intros T y. apply is_tree_eq in T. destruct T as [E T]. cbn [pre root].
  split.
  - intros [<-|A]; [constructor|]. apply in_flat_map in A. destruct A as (t & Ht & A).
    rewrite Forall_forall in IH, T. apply IH in A; auto.
    assert (K : In (root t) (kids F x)) by (rewrite E; apply in_map; auto).
    clear -A K. induction A; [eapply reach_kid; [constructor|auto]|eapply reach_kid; eauto].
  - intros R. induction R as [|y z R IHR K]; [left; auto|]. right. apply in_flat_map.
    destruct IHR as [<-|A].
    + rewrite E in K. apply in_map_iff in K. destruct K as (t & <- & Ht). exists t. split; auto. destruct t; left; auto.
    + apply in_flat_map in A. destruct A as (t & Ht & A). exists t. split; auto.
      rewrite Forall_forall in IH, T. apply IH; auto. apply IH in A; auto. eapply reach_kid; eauto.
Qed.

Lemma reach_trans F x y z : reach F x y -> reach F y z -> reach F x z.
Proof. intros A B. induction B; auto. eapply reach_kid; eauto. Qed.

Section F.
Variables (h : heap) (F : forest).
Hypothesis HO : OK h F.
Let W := proj1 HO.
Let LK := proj2 HO.

Lemma reach_chain a b z : reach F a z -> reach F b z -> reach F a b \/ reach F b a.
Proof.
  intros A. revert b. induction A as [|y z A IH K]; intros b B; [right; auto|].
  inversion B as [|y' z' B' K']; subst.
  - left. eapply reach_kid; eauto.
  - assert (y' = y) by (apply (w_one_parent _ _ _ W y' y z); auto). subst. auto.
Qed.

Lemma siblings_disjoint p a b z : In a (kids F p) -> In b (kids F p) -> a <> b -> reach F a z -> reach F b z -> False.
Proof.
  intros A B N RA RB.
  assert (G : forall a b, In a (kids F p) -> In b (kids F p) -> a <> b -> reach F a b -> False).
  { clear a b A B N RA RB. intros a b A B N R. inversion R as [|y z' R' K]; subst; [auto|].
    assert (y = p) by (apply (w_one_parent _ _ _ W y p b); auto). subst.
    eapply reach_cycle; eauto. apply (w_finite _ _ _ W). }
  destruct (reach_chain a b z RA RB); eauto.
Qed.

Lemma pre_nodup_list l ts : NoDup l -> map root ts = l -> Forall (is_tree F) ts ->
  Forall (fun t => NoDup (pre t)) ts ->
  (forall a b z, In a l -> In b l -> a <> b -> reach F a z -> reach F b z -> False) -> NoDup (flat_map pre ts).
Proof.
  revert l. induction ts as [|t ts IH]; intros l ND E T N D; cbn [flat_map]; [constructor|].
  cbn in E. subst l. inversion ND as [|? ? N1 N2]; inversion T as [|? ? T1 T2]; inversion N as [|? ? M1 M2]; subst.
  assert (A : NoDup (flat_map pre ts)) by (apply (IH (map root ts)); auto; intros a b z A B; apply D; right; auto).
  assert (DJ : forall z, In z (pre t) -> ~ In z (flat_map pre ts)).
  { intros z Z1 Z2. apply in_flat_map in Z2. destruct Z2 as (s & Hs & Z2). rewrite Forall_forall in T2.
    rewrite (in_pre_reach F) in Z1 by auto. rewrite (in_pre_reach F) in Z2 by auto.
    apply (D (root t) (root s) z); auto; [left; auto|right; apply in_map; auto|].
    intros EE. apply N1. rewrite EE. apply in_map; auto. }
  clear -A DJ M1. induction (pre t) as [|x l IH]; auto. cbn. inversion M1; subst. constructor.
  - rewrite in_app_iff. intros [B|B]; auto. apply (DJ x); [left; auto|auto].
  - apply IH; auto. intros z Hz. apply DJ. right; auto.
Qed.

Lemma pre_nodup t : is_tree F t -> NoDup (pre t).
Proof.
  induction t as [x ts IH] using rtree_ind'. intros T. pose proof T as T0. apply is_tree_eq in T. destruct T as [E T].
  cbn [pre]. constructor.
  - intros A. apply in_flat_map in A. destruct A as (t & Ht & A). rewrite Forall_forall in T.
    rewrite (in_pre_reach F) in A by auto.
    apply (reach_cycle F (w_finite _ _ _ W) (root t) x A). rewrite E. apply in_map; auto.
  - eapply (pre_nodup_list (kids F x)); auto.
    + apply (w_nodup _ _ _ W).
    + rewrite Forall_forall in *. auto.
    + intros a b z A B. apply siblings_disjoint with (p := x); auto.
Qed.

Lemma tops_disjoint a b z : In a (concat (tops F)) -> In b (concat (tops F)) -> a <> b -> reach F a z -> reach F b z -> False.
Proof.
  intros A B N RA RB.
  assert (G : forall a b, In b (concat (tops F)) -> a <> b -> reach F a b -> False).
  { intros c d D M R. inversion R as [|y z' R' K]; subst; [auto|]. exact (w_top_or_kid _ _ _ W y d K D). }
  destruct (reach_chain a b z RA RB); eauto.
Qed.

Lemma doc_nodup l ts : In l (tops F) -> map root ts = l -> Forall (is_tree F) ts -> NoDup (flat_map pre ts).
Proof.
  intros Hl E T. eapply (pre_nodup_list l); auto.
  - eapply nodup_top; eauto. apply (w_tops_nodup _ _ _ W).
  - rewrite Forall_forall in *. intros t Ht. apply pre_nodup; auto.
  - intros a b z A B. apply tops_disjoint; apply in_concat; eauto.
Qed.

Lemma kid_size p x : In x (kids F p) -> x < size h.
Proof. intros K. apply (w_exists _ _ _ W). right. exists p; auto. Qed.
Lemma reach_size x y : x < size h -> reach F x y -> y < size h.
Proof. intros A. induction 1; auto. eapply kid_size; eauto. Qed.

Lemma pre_length t : is_tree F t -> root t < size h -> length (pre t) <= size h.
Proof.
  intros T S. replace (size h) with (length (seq 0 (size h))) by apply seq_length.
  apply NoDup_incl_length; [apply pre_nodup; auto|]. intros y Hy. apply in_seq.
  rewrite (in_pre_reach F) in Hy by auto. apply (reach_size (root t)) in Hy; auto. lia.
Qed.

(** Going up ends. *)
Lemma up_ind (P : id -> Prop) :
  (forall x, In x (concat (tops F)) -> P x) ->
  (forall p x, In x (kids F p) -> P p -> P x) ->
  forall x, x < size h -> P x.
Proof.
  intros H1 H2.
  assert (G : forall n x t, root t = x -> is_tree F t -> x < size h -> size h - length (pre t) < n -> P x).
  { induction n as [|n IH]; intros x t E T S L; [lia|].
    apply (w_exists _ _ _ W) in S. destruct S as [S|(p & K)]; [auto|].
    apply (H2 p); auto. destruct (tree_exists F p (w_finite _ _ _ W)) as (tp & Ep & Tp).
    destruct (wf_ends _ _ _ _ _ W K) as (PS & XS & _).
    apply (IH p tp); auto.
    assert (length (pre t) < length (pre tp)).
    { destruct tp as [p' ts]. cbn in Ep. subst p'. apply is_tree_eq in Tp. destruct Tp as [E1 T1]. rewrite E1 in K.
      apply in_map_iff in K. destruct K as (t' & Er & Ht). rewrite Forall_forall in T1.
      assert (t' = t) by (apply (tree_unique F); auto; congruence). subst t'.
      cbn [pre length]. clear -Ht. induction ts as [|s ts IH]; [destruct Ht|]. cbn [flat_map]. rewrite app_length.
      destruct Ht as [->|Ht]; [lia|]. apply IH in Ht. lia. }
    pose proof (pre_length tp Tp ltac:(rewrite Ep; auto)). lia. }
  intros x S. destruct (tree_exists F x (w_finite _ _ _ W)) as (t & E & T). eapply G; eauto.
Qed.

(** ** Element lists *)
Lemma collect_seg (link : id -> option id) : forall l c r,
  (forall a x b, l = a ++ x :: b -> link x = ohd b None) -> c = ohd l None ->
  ends (fun n => collect link n c r) (r ++ l).
Proof.
  induction l as [|x l IH]; intros c r HL ->; cbn [ohd].
  - exists 1. intros [|n] Hn; [lia|]. cbn. rewrite app_nil_r. reflexivity.
  - destruct (IH (ohd l None) (r ++ [x])) as (n0 & E).
    + intros a y b ->. apply (HL (x :: a)). reflexivity.
    + reflexivity.
    + exists (S n0). intros [|n] Hn; [lia|]. cbn [collect]. rewrite (HL [] x l eq_refl), E by lia.
      rewrite <- app_assoc. reflexivity.
Qed.

Lemma children_ok x : x < size h -> ends (fun n => children h n (Some x)) (kids F x).
Proof.
  intros S. unfold children. destruct (isNode h x) eqn:EN; cbn [negb].
  - destruct (l_ends _ _ LK x S) as [E _]. rewrite E.
    apply (collect_seg (next h) (kids F x) _ []); auto. intros a y b EL.
    pose proof (l_kids _ _ LK x) as D. rewrite EL in D. apply dseg_at in D. tauto.
  - rewrite (w_token _ _ _ W x EN). exists 0. auto.
Qed.

(** the list of siblings of an element *)
Definition sib_list (l : list id) : Prop := In l (tops F) \/ exists p, l = kids F p.
Lemma sib_dseg l : sib_list l -> exists pa, dseg h pa None l None.
Proof. intros [H|(p & ->)]; [exists None; apply (l_tops _ _ LK); auto|exists (Some p); apply (l_kids _ _ LK)]. Qed.

Lemma next_siblings_ok l1 x l2 : sib_list (l1 ++ x :: l2) -> ends (fun n => nextSiblings h n (Some x)) l2.
Proof.
  intros H. destruct (sib_dseg _ H) as (pa & D). pose proof (dseg_at _ _ _ _ _ D) as (_ & _ & P3).
  unfold nextSiblings. apply (collect_seg (next h) l2 _ []); auto.
  intros a y b ->. assert (E : l1 ++ x :: a ++ y :: b = (l1 ++ x :: a) ++ y :: b) by (rewrite <- app_assoc; reflexivity).
  rewrite E in D. apply dseg_at in D. tauto.
Qed.
Lemma prev_siblings_ok l1 x l2 : sib_list (l1 ++ x :: l2) -> ends (fun n => prevSiblings h n (Some x)) (rev l1).
Proof.
  intros H. destruct (sib_dseg _ H) as (pa & D). pose proof (dseg_at _ _ _ _ _ D) as (_ & P2 & _).
  unfold prevSiblings. apply (collect_seg (prev h) (rev l1) _ []); [|rewrite P2, olast_rev, ohd_hd; auto].
  intros a y b E. apply (f_equal (@rev _)) in E. rewrite rev_involutive, rev_app_distr in E. cbn [rev] in E.
  rewrite <- app_assoc in E. cbn [app] in E. rewrite E in D. rewrite <- app_assoc in D. cbn [app] in D.
  apply dseg_at in D. destruct D as (_ & D & _). rewrite D, olast_rev, rev_involutive, ohd_hd. auto.
Qed.

Lemma ancestors_ok x : x < size h -> exists l, is_ancestors F x l /\ ends (fun n => ancestors h n (Some x)) l.
Proof.
  assert (G : forall x, x < size h -> exists l, is_ancestors F x l /\ forall r, ends (fun n => collect (parent h) n (parent h x) r) (r ++ l)).
  { apply (up_ind (fun x => exists l, is_ancestors F x l /\ forall r, ends (fun n => collect (parent h) n (parent h x) r) (r ++ l))).
    - intros y Hy. exists []. split; [cbn; intros p K; exact (w_top_or_kid _ _ _ W p y K Hy)|]. intros r.
      rewrite (parent_top h F LK y Hy). exists 1. intros [|n] Hn; [lia|]. cbn. rewrite app_nil_r. reflexivity.
    - intros p y K (l & A & E). exists (p :: l). split; [cbn; auto|]. intros r. rewrite (parent_kid h F LK p y K).
      destruct (E (r ++ [p])) as (n0 & E'). exists (S n0). intros [|n] Hn; [lia|]. cbn [collect]. rewrite E' by lia.
      rewrite <- app_assoc. reflexivity. }
  intros S. destruct (G x S) as (l & A & E). exists l. split; auto. apply (E []).
Qed.

(** ** Tokens *)
Lemma tokens_app l1 l2 : tokens h (l1 ++ l2) = tokens h l1 ++ tokens h l2.
Proof. apply filter_app. Qed.

Lemma ends_all {A B} (f : A -> nat -> option B) (r : A -> B) l :
  Forall (fun a => ends (f a) (r a)) l -> exists n0, forall a n, In a l -> n0 <= n -> f a n = Some (r a).
Proof.
  induction 1 as [|a l (n1 & E1) _ (n2 & E2)]; [exists 0; intros ? ? []|].
  exists (Nat.max n1 n2). intros b n [<-|Hb] Hn; [apply E1; lia|apply E2; [auto|lia]].
Qed.

Definition firstLoop (f : nat) := fix loop (k : nat) (c : option id) : option (option id) :=
  match k with
  | O => None
  | S k' =>
      match c with
      | None => Some None
      | Some y =>
          if isNode h y then
            do nn <- firstTokenElement h f c;
            match nn with
            | Some _ => Some nn
            | None => loop k' (next h y)
            end
          else Some c
      end
  end.
Lemma first_token_eq f x : firstTokenElement h (S f) (Some x) =
  if negb (isNode h x) then Some (Some x) else firstLoop f (S f) (firstChild h x).
Proof. reflexivity. Qed.

Lemma first_token_ok t : is_tree F t -> root t < size h ->
  ends (fun n => firstTokenElement h n (Some (root t))) (hd_error (tokens h (pre t))).
Proof.
  induction t as [x ts IH] using rtree_ind'. intros T SZ. apply is_tree_eq in T. destruct T as [E T]. cbn [root] in SZ |- *.
  destruct (isNode h x) eqn:EN.
  2:{ exists 1. intros [|n] Hn; [lia|]. cbn [firstTokenElement]. rewrite EN. cbn [negb pre tokens filter]. rewrite EN. reflexivity. }
  assert (IH' : Forall (fun t => ends (fun n => firstTokenElement h n (Some (root t))) (hd_error (tokens h (pre t)))) ts).
  { rewrite Forall_forall in *. intros t Ht. apply IH; auto. apply (kid_size x). rewrite E. apply in_map; auto. }
  apply (ends_all (fun t n => firstTokenElement h n (Some (root t))) (fun t => hd_error (tokens h (pre t)))) in IH'.
  destruct IH' as (n0 & IH').
  exists (S (n0 + length ts + 1)). intros [|n] Hn; [lia|]. rewrite first_token_eq, EN. cbn [negb].
  destruct (l_ends _ _ LK x SZ) as [E1 _]. rewrite E1, E.
  cbn [pre]. unfold tokens at 1. cbn [filter]. rewrite EN. cbn [negb]. fold (tokens h (flat_map pre ts)).
  assert (HN : n0 <= n) by lia. assert (HK : length ts < S n) by lia. revert HK.
  assert (D : dseg h (Some x) (olast [] None) (map root ts) None) by (rewrite <- E; apply (l_kids _ _ LK x)).
  revert D. generalize (olast [] None) as pv. generalize (S n) as k. clear E1 E SZ Hn.
  induction ts as [|t ts IHts]; intros k pv D HK; (destruct k as [|k]; [cbn in HK; lia|]); cbn [map ohd firstLoop]; fold (firstLoop n); [reflexivity|].
  cbn [map dseg] in D. destruct D as (_ & _ & NX & D). inversion T as [|? ? T1 T2]; subst.
  cbn [flat_map]. rewrite tokens_app.
  destruct (isNode h (root t)) eqn:ER.
  - rewrite (IH' t n (or_introl eq_refl) HN). cbn [obind].
    destruct (hd_error (tokens h (pre t))) as [y|] eqn:EH.
    + destruct (tokens h (pre t)); [discriminate|]. cbn in EH. injection EH as ->. reflexivity.
    + destruct (tokens h (pre t)) eqn:ET; [|discriminate]. cbn [app]. rewrite NX.
      apply (IHts ltac:(inversion IH; auto) T2 ltac:(intros; apply IH'; [right; auto|auto]) k _ D). cbn in HK. lia.
  - destruct t as [y ts0]. cbn [root] in *. cbn [pre]. unfold tokens at 1. cbn [filter]. rewrite ER. reflexivity.
Qed.

(** Documents. *)
Inductive after : id -> list id -> Prop :=
| after_top l1 x l2 ts : In (l1 ++ x :: l2) (tops F) -> map root ts = l2 -> Forall (is_tree F) ts -> after x (flat_map pre ts)
| after_kid p l1 x l2 ts a : kids F p = l1 ++ x :: l2 -> map root ts = l2 -> Forall (is_tree F) ts -> after p a ->
    after x (flat_map pre ts ++ a).
Inductive around : id -> list id -> list id -> Prop :=
| around_top l1 x l2 t1 ts : In (l1 ++ x :: l2) (tops F) -> map root t1 = l1 -> map root ts = l2 ->
    Forall (is_tree F) t1 -> Forall (is_tree F) ts -> around x (flat_map pre t1) (flat_map pre ts)
| around_kid p l1 x l2 t1 ts b a : kids F p = l1 ++ x :: l2 -> map root t1 = l1 -> map root ts = l2 ->
    Forall (is_tree F) t1 -> Forall (is_tree F) ts -> around p b a ->
    around x (b ++ p :: flat_map pre t1) (flat_map pre ts ++ a).
Lemma around_after x b a : around x b a -> after x a.
Proof. induction 1; [eapply after_top; eauto|eapply after_kid; eauto]. Qed.

Lemma map_root_app l1 l2 ts : map root ts = l1 ++ l2 -> exists t1 t2, ts = t1 ++ t2 /\ map root t1 = l1 /\ map root t2 = l2.
Proof.
  revert ts. induction l1 as [|x l1 IH]; intros ts E; [exists [], ts; auto|].
  destruct ts as [|t ts]; [discriminate|]. cbn in E. injection E as <- E. destruct (IH ts E) as (t1 & t2 & -> & <- & <-).
  exists (t :: t1), t2. auto.
Qed.

Lemma same_trees t1 t2 : map root t1 = map root t2 -> Forall (is_tree F) t1 -> Forall (is_tree F) t2 -> t1 = t2.
Proof.
  revert t2. induction t1 as [|u t1 IH]; intros [|v t2] E T1 T2; try discriminate; auto.
  cbn in E. injection E as E1 E2. inversion T1; inversion T2; subst. f_equal; auto. apply (tree_unique F); auto.
Qed.

Lemma around_doc x b a : around x b a -> exists s, in_document F x b s a.
Proof.
  induction 1 as [l1 x l2 t1 ts Hl E1 E T1 T|p l1 x l2 t1 ts b a K E1 E T1 T A (s & l & tds & tp & Hl & El & Tl & Tp & Rp & Sp & D & ND)].
  - destruct (tree_exists F x (w_finite _ _ _ W)) as (t & Et & Tt).
    exists (pre t), (l1 ++ x :: l2), (t1 ++ t :: ts), t.
    assert (DD : flat_map pre (t1 ++ t :: ts) = flat_map pre t1 ++ pre t ++ flat_map pre ts)
      by (rewrite flat_map_app; reflexivity).
    assert (RR : map root (t1 ++ t :: ts) = l1 ++ x :: l2) by (rewrite map_app; cbn; congruence).
    assert (TT : Forall (is_tree F) (t1 ++ t :: ts)) by (apply Forall_app; auto).
    split; auto. split; auto. split; auto. split; auto. split; auto. split; auto. split; [exact DD|].
    rewrite <- DD. eapply doc_nodup; eauto.
  - destruct tp as [p' tks]. cbn [root] in Rp. subst p'. apply is_tree_eq in Tp. destruct Tp as [Ek Tk].
    rewrite K in Ek. symmetry in Ek. destruct (map_root_app l1 (x :: l2) tks Ek) as (t1' & t2 & -> & E1' & E2).
    destruct t2 as [|t t2]; [discriminate|]. cbn [map] in E2. injection E2 as Et E2.
    apply Forall_app in Tk. destruct Tk as [T1' T2]. inversion T2 as [|? ? Tt T3]; subst.
    assert (t2 = ts) by (apply same_trees; auto). subst t2.
    assert (t1' = t1) by (apply same_trees; auto). subst t1'.
    exists (pre t), (map root tds), tds, t.
    assert (DD : b ++ pre (RT p (t1 ++ t :: ts)) ++ a = (b ++ p :: flat_map pre t1) ++ pre t ++ flat_map pre ts ++ a).
    { cbn [pre]. rewrite flat_map_app. cbn [flat_map]. rewrite <- !app_assoc. cbn [app]. rewrite <- !app_assoc. reflexivity. }
    split; auto. split; auto. split; auto. split; auto. split; auto. split; auto. split; [congruence|].
    rewrite <- DD. exact ND.
Qed.

Lemma around_exists x : x < size h -> exists b a, around x b a.
Proof.
  apply (up_ind (fun x => exists b a, around x b a)).
  - intros y Hy. apply in_concat in Hy. destruct Hy as (l & Hl & Hy). destruct (in_split _ _ Hy) as (l1 & l2 & ->).
    destruct (trees_exist F l1 (w_finite _ _ _ W)) as (t1 & E1 & T1).
    destruct (trees_exist F l2 (w_finite _ _ _ W)) as (ts & E & T). do 2 eexists. eapply around_top; eauto.
  - intros p y K (b & a & A). destruct (in_split _ _ K) as (l1 & l2 & E).
    destruct (trees_exist F l1 (w_finite _ _ _ W)) as (t1 & E1 & T1).
    destruct (trees_exist F l2 (w_finite _ _ _ W)) as (ts & E' & T). do 2 eexists. eapply around_kid; eauto.
Qed.

Lemma top_size l x : In l (tops F) -> In x l -> x < size h.
Proof. intros A B. apply (w_exists _ _ _ W). left. apply in_concat. eauto. Qed.

(** What NextTokenElement returns: the first token of the nearest following
    sibling subtree. *)
Lemma next_token_what x a : after x a -> x < size h ->
  exists r, ends (fun n => nextTokenElement h n (Some x)) r /\
    (r = hd_error (tokens h a) \/ (r = None /\ ~ all_have_tokens h F)).
Proof.
  intros A SZ.
  assert (G : exists o, ends (fun n => nextUp h n x) o /\
     match o with
     | None => a = []
     | Some y => exists t a', is_tree F t /\ root t = y /\ y < size h /\ a = pre t ++ a'
     end).
  { clear SZ. induction A as [l1 x l2 ts Hl E T|p l1 x l2 ts a K E T A IH].
    - pose proof (dseg_at _ _ _ _ _ (l_tops _ _ LK _ Hl)) as (P1 & _ & P3).
      exists (ohd l2 None). split.
      + exists 1. intros [|n] Hn; [lia|]. cbn [nextUp]. rewrite P3, P1. destruct l2; reflexivity.
      + destruct ts as [|t ts]; cbn in E; subst l2; [reflexivity|]. cbn [ohd]. inversion T; subst.
        exists t, (flat_map pre ts). repeat split; auto. apply (top_size _ _ Hl). apply in_or_app; right; right; left; auto.
    - pose proof (l_kids _ _ LK p) as D. rewrite K in D. pose proof (dseg_at _ _ _ _ _ D) as (P1 & _ & P3).
      destruct ts as [|t ts]; cbn in E; subst l2.
      + destruct IH as (o & (n0 & EN) & O). exists o. split; [|exact O].
        exists (S n0). intros [|n] Hn; [lia|]. cbn [nextUp]. rewrite P3, P1. cbn [ohd]. apply EN. lia.
      + exists (Some (root t)). split.
        * exists 1. intros [|n] Hn; [lia|]. cbn [nextUp]. rewrite P3. reflexivity.
        * inversion T; subst. exists t, (flat_map pre ts ++ a). repeat split; auto.
          -- apply (kid_size p). rewrite K. apply in_or_app; right; right; left; auto.
          -- cbn [flat_map]. rewrite <- app_assoc. reflexivity. }
  destruct G as (o & (n1 & E1) & O). unfold nextTokenElement. destruct o as [y|].
  - destruct O as (t & a' & T & R & Sy & ->).
    destruct (first_token_ok t T ltac:(congruence)) as (n2 & E2). rewrite R in E2.
    exists (hd_error (tokens h (pre t))). split.
    + exists (Nat.max n1 n2). intros n Hn. rewrite E1 by lia. cbn [obind]. apply E2. lia.
    + rewrite tokens_app. destruct (tokens h (pre t)) eqn:ET; [|left; reflexivity].
      right. split; [reflexivity|]. intros H. apply (H t T ltac:(congruence) ET).
  - subst a. exists None. split; [|left; reflexivity].
    exists n1. intros n Hn. rewrite E1 by lia. reflexivity.
Qed.
End F.

(** ** Right to left = left to right in the mirror *)
Definition mirror (h : heap) : heap :=
  mkHeap (isNode h) (parent h) (next h) (prev h) (lastChild h) (firstChild h) (size h).
Definition mirrorF (F : forest) : forest := on_lists (@rev id) F.

Lemma dseg_mirror h pa l : forall pv nx, dseg (mirror h) pa pv (rev l) nx <-> dseg h pa nx l pv.
Proof.
  induction l as [|x l IH]; intros pv nx; cbn [rev dseg]; [tauto|].
  rewrite dseg_app. cbn [ohd dseg]. rewrite IH.
  assert (O : olast (rev l) pv = ohd l pv).
  { destruct l as [|y l]; [reflexivity|]. cbn [rev ohd]. rewrite olast_app. reflexivity. }
  rewrite O. cbn [mirror parent prev next]. tauto.
Qed.

Lemma concat_rev_in (ls : list (list id)) x : In x (concat (map (@rev id) ls)) <-> In x (concat ls).
Proof.
  rewrite !in_concat. split.
  - intros (l & Hl & Hx). apply in_map_iff in Hl. destruct Hl as (l0 & <- & Hl). apply in_rev in Hx. eauto.
  - intros (l & Hl & Hx). exists (rev l). split; [apply in_map; auto|]. apply -> in_rev. auto.
Qed.

Lemma OK_mirror h F : OK h F -> OK (mirror h) (mirrorF F).
Proof.
  intros [W LK]. split.
  - constructor; cbn [mirrorF on_lists kids tops mirror size isNode].
    + intros p Hp. rewrite (w_token _ _ _ W p Hp). reflexivity.
    + intros x. rewrite concat_rev_in. rewrite (w_exists _ _ _ W x). unfold has_parent. cbn [kids mirrorF on_lists].
      split; (intros [A|(p & A)]; [left; auto|right; exists p]); [apply -> in_rev; auto|apply in_rev; auto].
    + intros p Hp. rewrite (w_fresh _ _ _ W p Hp). reflexivity.
    + intros p. apply NoDup_rev, (w_nodup _ _ _ W).
    + intros p q x A B. apply in_rev in A. apply in_rev in B. apply (w_one_parent _ _ _ W p q x A B).
    + assert (G : forall ls, NoDup (concat ls) -> NoDup (concat (map (@rev id) ls))).
      { clear. induction ls as [|l ls IH]; intros ND; cbn [map concat] in *; auto.
        apply NoDup_app_inv in ND. destruct ND as (N1 & N2 & N3).
        apply NoDup_rev in N1. specialize (IH N2). 
        assert (N3' : forall x, In x (rev l) -> ~ In x (concat (map (@rev id) ls))).
        { intros x Hx. rewrite concat_rev_in. apply N3. apply in_rev; auto. }
        clear N3 N2. induction (rev l) as [|y m IHm]; auto. cbn. inversion N1; subst. constructor.
        - rewrite in_app_iff. intros [A|A]; auto. apply (N3' y); [left; auto|auto].
        - apply IHm; auto. intros x Hx. apply N3'. right; auto. }
      apply G, (w_tops_nodup _ _ _ W).
    + intros p x A. rewrite concat_rev_in. apply in_rev in A. apply (w_top_or_kid _ _ _ W p x A).
    + intros x. pose proof (w_finite _ _ _ W x) as A. induction A as [x _ IH]. constructor. intros z Hz.
      apply in_rev in Hz. auto.
  - constructor; cbn [mirrorF on_lists kids tops mirror size].
    + intros p. apply dseg_mirror. apply (l_kids _ _ LK).
    + intros l Hl. apply in_map_iff in Hl. destruct Hl as (l0 & <- & Hl). apply dseg_mirror. apply (l_tops _ _ LK). auto.
    + intros p Hp. cbn [firstChild lastChild mirror]. destruct (l_ends _ _ LK p Hp) as [A B].
      rewrite olast_rev, rev_involutive, ohd_hd, A, B, ohd_hd, olast_rev. auto.
Qed.

Lemma root_mirror t : root (mirror_tree t) = root t.
Proof. destruct t; reflexivity. Qed.

Lemma is_tree_mirror F t : is_tree F t -> is_tree (mirrorF F) (mirror_tree t).
Proof.
  induction t as [x ts IH] using rtree_ind'. intros T. apply is_tree_eq in T. destruct T as [E T].
  cbn [mirror_tree]. apply is_tree_eq. split.
  - cbn [mirrorF on_lists kids]. rewrite E, map_rev, map_map. f_equal. apply map_ext. intros t. symmetry. apply root_mirror.
  - apply Forall_rev. apply Forall_map. rewrite Forall_forall in *. auto.
Qed.

Lemma tokens_mirror h F t : OK h F -> is_tree F t -> tokens h (pre (mirror_tree t)) = rev (tokens h (pre t)).
Proof.
  intros HO. induction t as [x ts IH] using rtree_ind'. intros T. apply is_tree_eq in T. destruct T as [E T].
  cbn [mirror_tree pre]. unfold tokens at 1 2. cbn [filter]. fold (tokens h (flat_map pre (rev (map mirror_tree ts)))).
  fold (tokens h (flat_map pre ts)).
  assert (G : tokens h (flat_map pre (rev (map mirror_tree ts))) = rev (tokens h (flat_map pre ts))).
  { clear E. induction ts as [|t ts IHts]; [reflexivity|]. inversion IH; inversion T; subst.
    cbn [map rev flat_map]. rewrite flat_map_app, !tokens_app, rev_app_distr, IHts by auto.
    cbn [flat_map]. rewrite app_nil_r, H1 by auto. reflexivity. }
  rewrite G. destruct (isNode h x) eqn:EN; cbn [negb]; [reflexivity|].
  destruct HO as [W _]. rewrite (w_token _ _ _ W x EN) in E. destruct ts; [reflexivity|discriminate].
Qed.

Lemma last_is_first h fuel : forall n, lastTokenElement h fuel n = firstTokenElement (mirror h) fuel n.
Proof. reflexivity. Qed.
Lemma prev_is_next h fuel n : prevTokenElement h fuel n = nextTokenElement (mirror h) fuel n.
Proof. reflexivity. Qed.

Lemma last_token_ok h F t : OK h F -> is_tree F t -> root t < size h ->
  ends (fun n => lastTokenElement h n (Some (root t))) (last_error (tokens h (pre t))).
Proof.
  intros HO T S. pose proof (first_token_ok (mirror h) (mirrorF F) (OK_mirror h F HO) (mirror_tree t) (is_tree_mirror F t T)) as A.
  rewrite root_mirror in A. unfold last_error. rewrite <- (tokens_mirror h F t HO T). exact (A S).
Qed.

Lemma tokens_mirror_list h F ts : OK h F -> Forall (is_tree F) ts ->
  tokens h (flat_map pre (rev (map mirror_tree ts))) = rev (tokens h (flat_map pre ts)).
Proof.
  intros HO T. induction ts as [|t ts IHts]; [reflexivity|]. inversion T; subst.
  cbn [map rev flat_map]. rewrite flat_map_app, !tokens_app, rev_app_distr, IHts by auto.
  cbn [flat_map]. rewrite app_nil_r, (tokens_mirror h F) by auto. reflexivity.
Qed.

Lemma around_mirror h F x b a : OK h F -> around F x b a ->
  exists b', after (mirrorF F) x b' /\ tokens h b' = rev (tokens h b).
Proof.
  intros HO. induction 1 as [l1 x l2 t1 ts Hl E1 E T1 T|p l1 x l2 t1 ts b a K E1 E T1 T A (b' & IA & IT)].
  - exists (flat_map pre (rev (map mirror_tree t1))). split; [|eapply tokens_mirror_list; eauto].
    apply (after_top (mirrorF F) (rev l2) x (rev l1)).
    + cbn [mirrorF on_lists tops]. apply in_map_iff. exists (l1 ++ x :: l2). split; auto.
      rewrite rev_app_distr. cbn [rev]. rewrite <- app_assoc. reflexivity.
    + rewrite map_rev, map_map. f_equal. rewrite <- E1. apply map_ext, root_mirror.
    + apply Forall_rev, Forall_map. rewrite Forall_forall in *. intros t Ht. apply is_tree_mirror; auto.
  - exists (flat_map pre (rev (map mirror_tree t1)) ++ b'). split.
    + apply (after_kid (mirrorF F) p (rev l2) x (rev l1)); auto.
      * cbn [mirrorF on_lists kids]. rewrite K, rev_app_distr. cbn [rev]. rewrite <- app_assoc. reflexivity.
      * rewrite map_rev, map_map. f_equal. rewrite <- E1. apply map_ext, root_mirror.
      * apply Forall_rev, Forall_map. rewrite Forall_forall in *. intros t Ht. apply is_tree_mirror; auto.
    + rewrite !tokens_app, rev_app_distr, IT, (tokens_mirror_list h F) by auto. f_equal.
      assert (EN : isNode h p = true).
      { destruct (isNode h p) eqn:EN; auto. rewrite (w_token _ _ _ (proj1 HO) p EN) in K. destruct l1; discriminate. }
      unfold tokens at 2. cbn [filter]. rewrite EN. reflexivity.
Qed.

Lemma all_have_tokens_mirror h F : OK h F -> all_have_tokens h F -> all_have_tokens (mirror h) (mirrorF F).
Proof.
  intros HO A t T S. destruct (tree_exists F (root t) (w_finite _ _ _ (proj1 HO))) as (t' & E & T').
  assert (t = mirror_tree t').
  { apply (tree_unique (mirrorF F)); auto; [apply is_tree_mirror; auto|rewrite root_mirror; auto]. }
  subst t. change (tokens (mirror h)) with (tokens h). rewrite (tokens_mirror h F) by auto.
  intros E0. apply (f_equal (@rev _)) in E0. rewrite rev_involutive in E0. cbn in E0.
  apply (A t' T'); auto. cbn in S. rewrite root_mirror in S. auto.
Qed.

(** Both directions. *)
Lemma token_nav h F x : OK h F -> x < size h -> exists b s a, in_document F x b s a /\
  (exists r, ends (fun n => nextTokenElement h n (Some x)) r /\
     (r = hd_error (tokens h a) \/ (r = None /\ ~ all_have_tokens h F))) /\
  (exists r, ends (fun n => prevTokenElement h n (Some x)) r /\
     (r = last_error (tokens h b) \/ (r = None /\ ~ all_have_tokens h F))).
Proof.
  intros HO S. destruct (around_exists h F HO x S) as (b & a & A).
  destruct (around_doc h F HO x b a A) as (s & D). exists b, s, a. split; auto. split.
  - apply (next_token_what h F HO); auto. eapply around_after; eauto.
  - destruct (around_mirror h F x b a HO A) as (b' & A' & E).
    destruct (next_token_what (mirror h) (mirrorF F) (OK_mirror h F HO) x b' A' S) as (r & R & Q).
    exists r. split; [exact R|]. change (tokens (mirror h)) with (tokens h) in Q. rewrite E in Q.
    destruct Q as [Q|[Q N]]; [left; auto|right; split; auto]. intros AH. apply N, all_have_tokens_mirror; auto.
Qed.

(** ** Walker *)
Lemma has_bit f k : (0 <= k)%Z -> has f (2 ^ k) = Z.testbit f k.
Proof.
  intros K. unfold has. destruct (Z.testbit f k) eqn:E.
  - apply negb_true_iff, Z.eqb_neq. intros Z0. apply (f_equal (fun z => Z.testbit z k)) in Z0.
    rewrite Z.land_spec, E, Z.pow2_bits_true, Z.bits_0 in Z0 by auto. discriminate.
  - apply negb_false_iff, Z.eqb_eq. apply Z.bits_inj'. intros n Hn. rewrite Z.land_spec, Z.bits_0.
    destruct (Z.eq_dec n k) as [->|D]; [rewrite E; reflexivity|]. rewrite Z.pow2_bits_false by auto. apply andb_false_r.
Qed.
Lemma has_stop f : has f WalkerStop = stops f. Proof. apply (has_bit f 0); lia. Qed.
Lemma has_skipc f : has f WalkerSkipChildren = skips_children f. Proof. apply (has_bit f 1); lia. Qed.
Lemma has_skips f : has f WalkerSkipSiblings = skips_siblings f. Proof. apply (has_bit f 2); lia. Qed.
Lemma skips_ldiff f : skips_siblings (Z.ldiff f WalkerSkipChildren) = skips_siblings f.
Proof. unfold skips_siblings. rewrite Z.ldiff_spec. change (Z.testbit WalkerSkipChildren 2) with false. apply andb_true_r. Qed.

Lemma stepUp_flags h r m stack x f f' : skips_siblings f = skips_siblings f' -> stepUp h r m stack x f = stepUp h r m stack x f'.
Proof. intros E. destruct stack; cbn [stepUp]; rewrite !has_skips, E; reflexivity. Qed.

Fixpoint visits {V} (visitor : V -> stat -> V * Z) (level : nat) (l : list rtree) (v : V) : V * bool :=
  match l with
  | [] => (v, false)
  | s :: r =>
      let '(v', stopped, skip) := visit visitor level s v in
      if stopped then (v', true) else if skip then (v', false) else visits visitor level r v'
  end.
Lemma visit_eq {V} (visitor : V -> stat -> V * Z) level x ts v :
  visit visitor level (RT x ts) v =
    let (v1, f) := visitor v (x, level) in
    if stops f then (v1, true, false)
    else if skips_children f then (v1, false, skips_siblings f)
    else let '(v2, stopped) := visits visitor (S level) ts v1 in (v2, stopped, skips_siblings f).
Proof.
  cbn [visit]. destruct (visitor v (x, level)) as [v1 f]. destruct (stops f); auto. destruct (skips_children f); auto.
  assert (E : forall l v, (fix visits (l : list rtree) (v : V) : V * bool :=
             match l with
             | [] => (v, false)
             | s :: r =>
                 let '(v', stopped, skip) := visit visitor (S level) s v in
                 if stopped then (v', true) else if skip then (v', false) else visits r v'
             end) l v = visits visitor (S level) l v).
  { induction l as [|t l IH]; intros w; [reflexivity|]. cbn [visits]. destruct (visit visitor (S level) t w) as [[v' []] []]; auto. }
  rewrite E. reflexivity.
Qed.

Section Walk.
Context {V : Type} (visitor : V -> stat -> V * Z).
Variables (h0 h : heap) (F : forest) (m : Z) (r : id).
Hypothesis HM : h = if has m WalkRtl then mirror h0 else h0.
Hypothesis HO : OK h F.
Let W := proj1 HO.
Let LK := proj2 HO.

Definition loopFrom (n : nat) (ws : walker * option stat) (v : V) : option V :=
  match snd ws with
  | None => Some v
  | Some s => let '(v', fl) := visitor v s in
      if has fl WalkerStop then Some v' else option_map snd (walkLoop h0 visitor n (fst ws) fl v')
  end.
Lemma walkS n w f v : option_map snd (walkLoop h0 visitor (S n) w f v) = loopFrom n (step h0 w f) v.
Proof.
  cbn [walkLoop]. unfold loopFrom. destruct (step h0 w f) as [w' [s|]]; [|reflexivity]. cbn [fst snd].
  destruct (visitor v s) as [v' fl]. destruct (has fl WalkerStop); reflexivity.
Qed.

Definition Wk (x : id) (stack : list Z) := mkWalker (Some r) (Some x) stack m.

Lemma mode_next x : (if has m WalkRtl then prev h0 x else next h0 x) = next h x.
Proof. rewrite HM. destruct (has m WalkRtl); reflexivity. Qed.
Lemma mode_first x : (if has m WalkRtl then lastChild h0 x else firstChild h0 x) = firstChild h x.
Proof. rewrite HM. destruct (has m WalkRtl); reflexivity. Qed.
Lemma mode_parent x : parent h0 x = parent h x.
Proof. rewrite HM. destruct (has m WalkRtl); reflexivity. Qed.
Lemma mode_node x : isNode h0 x = isNode h x.
Proof. rewrite HM. destruct (has m WalkRtl); reflexivity. Qed.
Lemma mode_size : size h0 = size h.
Proof. rewrite HM. destruct (has m WalkRtl); reflexivity. Qed.

Definition stack_ok (x : id) (stack : list Z) := reach F r x /\ (stack = [] <-> x = r).

(** Leaving the last child to be visited. *)
Lemma leave n x c f fx stack v : stack_ok x stack -> In c (kids F x) ->
  (skips_siblings f = true \/ next h c = None) ->
  loopFrom n (stepUp h0 r m (Z.ldiff fx WalkerSkipChildren :: stack) c f) v = loopFrom n (stepUp h0 r m stack x fx) v.
Proof.
  intros [RX SK] K Q. cbn [stepUp].
  assert (NR : c =? r = false).
  { apply Nat.eqb_neq. intros ->. apply (reach_cycle F (w_finite _ _ _ W) r x RX K). }
  rewrite NR, has_skips, mode_next, mode_parent, (parent_kid h F LK x c K).
  assert (E : (if skips_siblings f then None else next h c) = None).
  { destruct Q as [-> | ->]; auto. destruct (skips_siblings f); auto. }
  rewrite E. destruct stack as [|f1 stack].
  - assert (x = r) by (apply SK; auto). subst x. cbn [stepUp]. rewrite Nat.eqb_refl. reflexivity.
  - rewrite (stepUp_flags h0 r m (f1 :: stack) x _ fx (skips_ldiff fx)). reflexivity.
Qed.

Lemma go_down x f stack : stops f = false -> stack_ok x stack ->
  step h0 (Wk x stack) f =
    match (if isNode h x && negb (skips_children f) then firstChild h x else None) with
    | Some c => (Wk c (Z.ldiff f WalkerSkipChildren :: stack), Some (c, S (length stack)))
    | None => stepUp h0 r m stack x f
    end.
Proof.
  intros S _. unfold step, Wk. rewrite has_stop, S. cbn [wroot wcurrent wmode wflags].
  rewrite has_skipc, mode_node, mode_first. reflexivity.
Qed.

Lemma walk_sub t : is_tree F t -> forall stack f v1, root t < size h -> stack_ok (root t) stack -> stops f = false ->
  let res := if skips_children f then (v1, false) else visits visitor (S (length stack)) (subs t) v1 in
  if snd res
  then exists k, forall n, k <= n -> option_map snd (walkLoop h0 visitor n (Wk (root t) stack) f v1) = Some (fst res)
  else exists k, forall n, option_map snd (walkLoop h0 visitor (k + S n) (Wk (root t) stack) f v1)
                           = loopFrom n (stepUp h0 r m stack (root t) f) (fst res).
Proof.
  induction t as [x ts IH] using rtree_ind'. intros T stack f v1 SZ SK ST. apply is_tree_eq in T. destruct T as [E T].
  cbn [root subs] in *.
  destruct (skips_children f) eqn:SC.
  { cbn [fst snd]. exists 0. intros n. rewrite Nat.add_0_l, walkS, go_down by auto. rewrite SC, andb_false_r. reflexivity. }
  destruct (l_ends _ _ LK x SZ) as [E1 _].
  destruct ts as [|t ts].
  { cbn [visits fst snd]. exists 0. intros n. rewrite Nat.add_0_l, walkS, go_down by auto.
    rewrite E1, E. cbn [map ohd]. destruct (_ && _); reflexivity. }
  assert (EN : isNode h x = true).
  { destruct (isNode h x) eqn:EN; auto. rewrite (w_token _ _ _ W x EN) in E. discriminate. }
  (* the children *)
  assert (G : forall t ts' v l1, kids F x = l1 ++ map root (t :: ts') ->
     Forall (is_tree F) (t :: ts') ->
     Forall (fun t => is_tree F t -> forall stack f v1, root t < size h -> stack_ok (root t) stack -> stops f = false ->
        let res := if skips_children f then (v1, false) else visits visitor (S (length stack)) (subs t) v1 in
        if snd res
        then exists k, forall n, k <= n -> option_map snd (walkLoop h0 visitor n (Wk (root t) stack) f v1) = Some (fst res)
        else exists k, forall n, option_map snd (walkLoop h0 visitor (k + S n) (Wk (root t) stack) f v1)
                           = loopFrom n (stepUp h0 r m stack (root t) f) (fst res)) (t :: ts') ->
     let stack' := Z.ldiff f WalkerSkipChildren :: stack in
     let res := visits visitor (S (length stack)) (t :: ts') v in
     if snd res
     then exists k, forall n, k <= n -> loopFrom n (Wk (root t) stack', Some (root t, S (length stack))) v = Some (fst res)
     else exists k, forall n, loopFrom (k + n) (Wk (root t) stack', Some (root t, S (length stack))) v
                              = loopFrom n (stepUp h0 r m stack x f) (fst res)).
  { clear t ts IH E E1 T. intros t ts'. revert t. induction ts' as [|t2 ts' IHts]; intros t v l1 EK TT IH stack' res.
    - (* last child *)
      pose proof (Forall_inv IH) as IH1. pose proof (Forall_inv TT) as T1.
      assert (KT : In (root t) (kids F x)) by (rewrite EK; apply in_or_app; right; left; reflexivity).
      assert (NX : next h (root t) = None).
      { pose proof (l_kids _ _ LK x) as D. rewrite EK in D. cbn [map] in D. apply dseg_at in D. apply D. }
      assert (SK' : stack_ok (root t) stack').
      { split; [eapply reach_kid; [apply SK|auto]|]. split; [discriminate|]. intros ER. exfalso.
        rewrite ER in KT. exact (reach_cycle F (w_finite _ _ _ W) r x (proj1 SK) KT). }
      assert (SZ' : root t < size h) by (eapply kid_size; eauto).
      subst res. cbn [visits]. destruct t as [c cs]. rewrite visit_eq. cbn [root subs] in *.
      destruct (visitor v (c, S (length stack))) as [v' fl] eqn:EV.
      destruct (stops fl) eqn:STF.
      { cbn [fst snd]. exists 0. intros n _. unfold loopFrom. cbn [snd fst]. rewrite EV, has_stop, STF. reflexivity. }
      specialize (IH1 T1 stack' fl v' SZ' SK' STF).
      replace (length stack') with (S (length stack)) in IH1 by reflexivity.
      destruct (skips_children fl) eqn:SCF; cbn [fst snd] in IH1 |- *.
      { destruct IH1 as (k & IH1).
        replace (if skips_siblings fl then (v', false) else (v', false)) with (v', false) by (destruct (skips_siblings fl); auto).
        cbn [fst snd]. exists (k + 1). intros n. unfold loopFrom at 1. cbn [snd fst]. rewrite EV, has_stop, STF.
        replace (k + 1 + n) with (k + S n) by lia. rewrite IH1. apply leave; auto. }
      destruct (visits visitor (S (S (length stack))) cs v') as [v2 []] eqn:EVS; cbn [fst snd] in IH1 |- *.
      { destruct IH1 as (k & IH1). exists k. intros n Hn. unfold loopFrom. cbn [snd fst]. rewrite EV, has_stop, STF. apply IH1; auto. }
      replace (if skips_siblings fl then (v2, false) else (v2, false)) with (v2, false) by (destruct (skips_siblings fl); auto).
      cbn [fst snd]. destruct IH1 as (k & IH1). exists (k + 1). intros n. unfold loopFrom at 1. cbn [snd fst]. rewrite EV, has_stop, STF.
      replace (k + 1 + n) with (k + S n) by lia. rewrite IH1. apply leave; auto.
    - pose proof (Forall_inv IH) as IH1. pose proof (Forall_inv TT) as T1. pose proof (Forall_inv_tail IH) as IH2. pose proof (Forall_inv_tail TT) as T2.
      assert (KT : In (root t) (kids F x)) by (rewrite EK; apply in_or_app; right; left; reflexivity).
      assert (NX : next h (root t) = Some (root t2)).
      { pose proof (l_kids _ _ LK x) as D. rewrite EK in D. cbn [map] in D. apply dseg_at in D. apply D. }
      assert (NR : root t <> r).
      { intros ER. rewrite ER in KT. exact (reach_cycle F (w_finite _ _ _ W) r x (proj1 SK) KT). }
      assert (SK' : stack_ok (root t) stack').
      { split; [eapply reach_kid; [apply SK|auto]|]. split; [discriminate|]. intros ER. contradiction. }
      assert (SZ' : root t < size h) by (eapply kid_size; eauto).
      assert (EK2 : kids F x = (l1 ++ [root t]) ++ map root (t2 :: ts')) by (rewrite <- app_assoc; exact EK).
      assert (UP : forall fl, skips_siblings fl = false ->
         stepUp h0 r m stack' (root t) fl = (Wk (root t2) stack', Some (root t2, S (length stack)))).
      { intros fl Q. subst stack'. cbn [stepUp]. apply Nat.eqb_neq in NR. rewrite NR, has_skips, Q, mode_next, NX. reflexivity. }
      specialize (IHts t2). 
      subst res. cbn [visits]. cbn [visits] in IHts. destruct t as [c cs]. rewrite visit_eq. cbn [root subs] in *.
      destruct (visitor v (c, S (length stack))) as [v' fl] eqn:EV.
      destruct (stops fl) eqn:STF.
      { cbn [fst snd]. exists 0. intros n _. unfold loopFrom. cbn [snd fst]. rewrite EV, has_stop, STF. reflexivity. }
      specialize (IH1 T1 stack' fl v' SZ' SK' STF).
      replace (length stack') with (S (length stack)) in IH1 by reflexivity.
      assert (END : forall v2,
        (exists k, forall n, option_map snd (walkLoop h0 visitor (k + S n) (Wk c stack') fl v') = loopFrom n (stepUp h0 r m stack' c fl) v2) ->
        let res := if skips_siblings fl then (v2, false)
                   else (let '(v'0, stopped, skip) := visit visitor (S (length stack)) t2 v2 in
                         if stopped then (v'0, true) else if skip then (v'0, false) else visits visitor (S (length stack)) ts' v'0) in
        if snd res
        then exists k, forall n, k <= n -> loopFrom n (Wk c stack', Some (c, S (length stack))) v = Some (fst res)
        else exists k, forall n, loopFrom (k + n) (Wk c stack', Some (c, S (length stack))) v
                              = loopFrom n (stepUp h0 r m stack x f) (fst res)).
      { intros v2 (k & IHk). destruct (skips_siblings fl) eqn:SSF; cbn zeta.
        - cbn [fst snd]. exists (k + 1). intros n. unfold loopFrom at 1. cbn [snd fst]. rewrite EV, has_stop, STF.
          replace (k + 1 + n) with (k + S n) by lia. rewrite IHk. apply leave; auto.
        - specialize (IHts v2 (l1 ++ [c]) EK2 T2 IH2). cbn zeta in IHts.
          destruct (let '(v'0, stopped, skip) := visit visitor (S (length stack)) t2 v2 in
                         if stopped then (v'0, true) else if skip then (v'0, false) else visits visitor (S (length stack)) ts' v'0) as [v3 []];
            cbn [fst snd] in IHts |- *; destruct IHts as (k2 & IHk2).
          + exists (k + S k2). intros n Hn. unfold loopFrom. cbn [snd fst]. rewrite EV, has_stop, STF.
            replace n with (k + S (n - k - 1)) by lia. rewrite IHk, (UP fl SSF). apply IHk2. lia.
          + exists (k + S k2). intros n. unfold loopFrom at 1. cbn [snd fst]. rewrite EV, has_stop, STF.
            replace (k + S k2 + n) with (k + S (k2 + n)) by lia. rewrite IHk, (UP fl SSF). apply IHk2. }
      destruct (skips_children fl) eqn:SCF; cbn [fst snd] in IH1.
      { apply END; auto. }
      destruct (visits visitor (S (S (length stack))) cs v') as [v2 []] eqn:EVS; cbn [fst snd] in IH1.
      { cbn [fst snd]. destruct IH1 as (k & IH1). exists k. intros n Hn. unfold loopFrom. cbn [snd fst]. rewrite EV, has_stop, STF. apply IH1; auto. }
      apply END; auto. }
  specialize (G t ts v1 [] E T IH). cbn zeta in G |- *.
  assert (DN : forall n, option_map snd (walkLoop h0 visitor (S n) (Wk x stack) f v1)
     = loopFrom n (Wk (root t) (Z.ldiff f WalkerSkipChildren :: stack), Some (root t, S (length stack))) v1).
  { intros n. rewrite walkS, go_down by auto. rewrite EN, SC, E1, E. reflexivity. }
  destruct (snd (visits visitor (S (length stack)) (t :: ts) v1)) eqn:EB; destruct G as (k & G).
  - exists (S k). intros [|n] Hn; [lia|]. rewrite DN. apply G. lia.
  - exists k. intros n. replace (k + S n) with (S (k + n)) by lia. rewrite DN. apply G.
Qed.

Lemma walk_ok t v : is_tree F t -> root t = r -> r < size h ->
  ends (fun n => option_map snd (walk h0 visitor n (Some r) m v)) (fst (fst (visit visitor 0 t v))).
Proof.
  intros T ER SZ. destruct t as [x ts]. cbn [root] in ER. subst x. rewrite visit_eq.
  assert (S0 : forall n, option_map snd (walk h0 visitor (S n) (Some r) m v) = loopFrom n (Wk r [], Some (r, 0)) v).
  { intros n. unfold walk. rewrite walkS. reflexivity. }
  destruct (visitor v (r, 0)) as [v1 f] eqn:EV.
  destruct (stops f) eqn:ST.
  { exists 1. intros [|n] Hn; [lia|]. rewrite S0. unfold loopFrom. cbn [fst snd]. rewrite EV, has_stop, ST. reflexivity. }
  assert (SK : stack_ok r []) by (split; [constructor|tauto]).
  pose proof (walk_sub (RT r ts) T [] f v1 SZ SK ST) as A. cbn [root subs length] in A. cbn zeta in A.
  assert (FIN : forall k v2, (forall n, option_map snd (walkLoop h0 visitor (k + S n) (Wk r []) f v1) = loopFrom n (stepUp h0 r m [] r f) v2) ->
     ends (fun n => option_map snd (walk h0 visitor n (Some r) m v)) v2).
  { intros k v2 H. exists (S (k + 1)). intros [|n] Hn; [lia|]. rewrite S0. unfold loopFrom. cbn [fst snd]. rewrite EV, has_stop, ST.
    replace n with (k + S (n - k - 1)) by lia. rewrite H. cbn [stepUp]. rewrite Nat.eqb_refl. reflexivity. }
  destruct (skips_children f) eqn:SC; cbn [fst snd] in A |- *.
  - destruct A as (k & A). eapply FIN; eauto.
  - destruct (visits visitor 1 ts v1) as [v2 []]; cbn [fst snd] in A |- *; destruct A as (k & A); [|eapply FIN; eauto].
    exists (S k). intros [|n] Hn; [lia|]. rewrite S0. unfold loopFrom. cbn [fst snd]. rewrite EV, has_stop, ST. apply A. lia.
Qed.
End Walk.

(** Searching is walking. *)
Definition search_visitor (nf : id -> bool) (flags : Z) (res : list id) (s : stat) : list id * Z :=
  if nf (fst s) then (res ++ [fst s], flags) else (res, 0%Z).
Lemma search_walk h nf flags : has flags WalkerStop = false -> forall fuel w f res,
  searchLoop h nf flags fuel w f res = option_map snd (walkLoop h (search_visitor nf flags) fuel w f res).
Proof.
  intros NS. induction fuel as [|fuel IH]; intros w f res; [reflexivity|]. cbn [searchLoop walkLoop].
  destruct (step h w f) as [w' [[x l]|]]; [|reflexivity]. unfold search_visitor at 1. cbn [fst].
  destruct (nf x); [rewrite NS|change (has 0 WalkerStop) with false]; apply IH.
Qed.

Lemma visit_found nf t : forall lvl res, visit (search_visitor nf WalkerSkipChildren) lvl t res = (res ++ found nf t, false, false).
Proof.
  induction t as [x ts IH] using rtree_ind'. intros lvl res. rewrite visit_eq. unfold search_visitor at 1. cbn [fst found].
  destruct (nf x); cbn; [reflexivity|].
  assert (G : forall res, visits (search_visitor nf WalkerSkipChildren) (S lvl) ts res = (res ++ flat_map (found nf) ts, false)).
  { clear res. induction ts as [|t ts IHts]; intros res; cbn [visits flat_map]; [rewrite app_nil_r; auto|].
    inversion IH as [|? ? I1 I2]; subst. rewrite I1, (IHts I2), app_assoc. reflexivity. }
  rewrite G. reflexivity.
Qed.
Lemma visit_deep nf t : forall lvl res, visit (search_visitor nf 0) lvl t res = (res ++ found_deep nf t, false, false).
Proof.
  induction t as [x ts IH] using rtree_ind'. intros lvl res. rewrite visit_eq. unfold search_visitor at 1. unfold found_deep. cbn [fst pre filter].
  assert (G : forall res, visits (search_visitor nf 0) (S lvl) ts res = (res ++ filter nf (flat_map pre ts), false)).
  { clear res. induction ts as [|t ts IHts]; intros res; cbn [visits flat_map]; [cbn; rewrite app_nil_r; auto|].
    inversion IH as [|? ? I1 I2]; subst. rewrite I1, (IHts I2), filter_app, app_assoc. reflexivity. }
  destruct (nf x); cbn; rewrite G; [rewrite <- app_assoc|]; reflexivity.
Qed.

Lemma search_ok h F nf (deep : bool) t : OK h F -> is_tree F t -> root t < size h ->
  ends (fun n => searchLoop h nf (if deep then 0 else WalkerSkipChildren)%Z n (newWalker (Some (root t)) WalkLtr) 0 [])
       (if deep then found_deep nf t else found nf t).
Proof.
  intros HO T S.
  destruct (walk_ok (search_visitor nf (if deep then 0 else WalkerSkipChildren)%Z) h h F WalkLtr (root t) eq_refl HO t [] T eq_refl S) as (n0 & E).
  exists n0. intros n Hn. rewrite search_walk by (destruct deep; reflexivity). specialize (E n Hn). unfold walk in E.
  rewrite E. destruct deep; [rewrite visit_deep|rewrite visit_found]; reflexivity.
Qed.

(** ** Selector *)
Lemma appendAll_ok {A} (f : A -> option (list id)) (g : A -> list id) ns : (forall x, In x ns -> f x = Some (g x)) ->
  forall res, appendAll f ns res = Some (res ++ flat_map g ns).
Proof.
  induction ns as [|x ns IH]; intros H res; cbn [appendAll flat_map]; [rewrite app_nil_r; auto|].
  rewrite (H x) by (left; auto). cbn [obind]. rewrite IH by (intros; apply H; right; auto). rewrite app_assoc. reflexivity.
Qed.

Section Sel.
Variable valid : id -> Prop.
Definition extracts (e : extractor) (g : id -> list id) : Prop :=
  forall x, valid x -> e x = Some (g x) /\ Forall valid (g x).

Lemma fold_select (gs : list (id -> list id)) : forall l : list id, fold_left (fun l g => flat_map g l) gs l = flat_map (fun x => fold_left (fun l g => flat_map g l) gs [x]) l.
Proof.
  induction gs as [|g gs IH]; intros l; cbn [fold_left].
  - induction l; cbn; congruence.
  - rewrite IH. induction l as [|x l IHl]; [reflexivity|]. cbn [flat_map]. rewrite flat_map_app, IHl. f_equal.
    rewrite app_nil_r. symmetry. apply IH.
Qed.

Lemma select_valid es gs : Forall2 extracts es gs -> forall l, Forall valid l -> Forall valid (fold_left (fun l g => flat_map g l) gs l).
Proof.
  induction 1 as [|e g es gs E _ IH]; intros l L; cbn [fold_left]; auto. apply IH.
  rewrite Forall_forall in *. intros y Hy. apply in_flat_map in Hy. destruct Hy as (x & Hx & Hy).
  destruct (E x (L x Hx)) as [_ V]. rewrite Forall_forall in V. auto.
Qed.

Lemma selectNodes_ok es gs : Forall2 extracts es gs -> es <> [] -> forall ns, Forall valid ns ->
  selectNodes ns es = Some (fold_left (fun l g => flat_map g l) gs ns).
Proof.
  induction 1 as [|e g es gs E FE IH]; intros NE ns V; [contradiction|]. cbn [selectNodes fold_left].
  destruct es as [|e2 es].
  - inversion FE; subst. cbn [fold_left]. rewrite (appendAll_ok _ g); [reflexivity|].
    rewrite Forall_forall in V. intros x Hx. apply E; auto.
  - rewrite (appendAll_ok _ (fun x => fold_left (fun l g => flat_map g l) gs (g x))).
    + cbn [app]. f_equal. rewrite (fold_select gs (flat_map g ns)). clear V.
      induction ns as [|x ns IHn]; [reflexivity|]. cbn [flat_map]. rewrite flat_map_app, <- IHn. f_equal. apply fold_select.
    + rewrite Forall_forall in V. intros x Hx. destruct (E x (V x Hx)) as [-> VX]. cbn [obind].
      apply IH; auto. discriminate.
Qed.

Lemma dedup_snoc l x : dedup (l ++ [x]) = if existsb (Nat.eqb x) l then dedup l else dedup l ++ [x].
Proof.
  unfold dedup. rewrite rev_app_distr. cbn [rev app nodup].
  destruct (in_dec Nat.eq_dec x (rev l)) as [I|I]; destruct (existsb (Nat.eqb x) l) eqn:EX; auto.
  - apply in_rev in I. assert (existsb (Nat.eqb x) l = true) by (apply existsb_exists; exists x; rewrite Nat.eqb_refl; auto). congruence.
  - apply existsb_exists in EX. destruct EX as (y & Hy & E). apply Nat.eqb_eq in E. subst y. apply in_rev in Hy. contradiction.
Qed.

Lemma addUnique_ok ns : forall index seen, (forall y, In y index <-> In y seen) ->
  exists index', addUnique index (dedup seen) ns = (index', dedup (seen ++ ns)) /\ forall y, In y index' <-> In y (seen ++ ns).
Proof.
  induction ns as [|x ns IH]; intros index seen I; cbn [addUnique].
  - exists index. rewrite app_nil_r. auto.
  - assert (EI : existsb (Nat.eqb x) index = existsb (Nat.eqb x) seen).
    { destruct (existsb (Nat.eqb x) index) eqn:E1; symmetry.
      - apply existsb_exists in E1. destruct E1 as (y & Hy & Q). apply existsb_exists. exists y. split; auto. apply I; auto.
      - apply not_true_is_false. intros E2. apply existsb_exists in E2. destruct E2 as (y & Hy & Q).
        rewrite <- not_true_iff_false in E1. apply E1. apply existsb_exists. exists y. split; auto. apply I; auto. }
    assert (EA : seen ++ x :: ns = (seen ++ [x]) ++ ns) by (rewrite <- app_assoc; reflexivity).
    rewrite EI. pose proof (dedup_snoc seen x) as DS.
    destruct (existsb (Nat.eqb x) seen) eqn:E.
    + rewrite <- DS, EA. apply IH. intros y. rewrite in_app_iff. cbn. rewrite I. split; [tauto|].
      intros [H|[->|[]]]; auto. apply existsb_exists in E. destruct E as (z & Hz & Q). apply Nat.eqb_eq in Q. subst; auto.
    + rewrite <- DS, EA. apply IH. intros y. cbn. rewrite in_app_iff. cbn. rewrite I. tauto.
Qed.

Lemma apply_ok s gs input : Forall2 extracts (extractors s) gs -> Forall valid (present input) ->
  apply s input = Some (let all := flat_map (select_one gs) (present input) in if unique s then dedup all else all).
Proof.
  intros FE V. unfold apply.
  assert (G : forall index seen, (forall y, In y index <-> In y seen) ->
     applyLoop s input index (if unique s then dedup seen else seen) =
     Some (let all := seen ++ flat_map (select_one gs) (present input) in if unique s then dedup all else all)).
  { induction input as [|[n|] input IH]; intros index seen I; cbn [applyLoop present flat_map].
    - rewrite app_nil_r. reflexivity.
    - cbn [present flat_map app] in V. inversion V as [|? ? V1 V2]; subst. fold (present input) in *.
      assert (SN : match extractors s with [] => Some [n] | exs => selectNodes [n] exs end = Some (select_one gs n)).
      { destruct (extractors s) as [|e es] eqn:EE; [inversion FE; subst; reflexivity|].
        unfold select_one. apply (selectNodes_ok (e :: es) gs FE); auto. discriminate. }
      rewrite SN. cbn [obind app]. cbn [flat_map].
      destruct (unique s) eqn:U.
      + destruct (addUnique_ok (select_one gs n) index seen I) as (index' & EU & I'). rewrite EU.
        rewrite (IH V2 index' (seen ++ select_one gs n) I'). rewrite <- app_assoc. reflexivity.
      + rewrite app_assoc.
        assert (J : forall l, exists idx : list id, forall y, In y idx <-> In y l) by (intros l; exists l; tauto).
        assert (K : forall idx idx' res, unique s = false -> applyLoop s input idx res = applyLoop s input idx' res).
        { clear -U. induction input as [|[n|] input IH]; intros idx idx' res _; cbn [applyLoop]; auto.
          destruct (match extractors s with [] => _ | _ => _ end) as [ns|]; [|reflexivity]. cbn [obind]. rewrite U. auto. }
        rewrite (K index (seen ++ select_one gs n) _ U). rewrite (IH V2 (seen ++ select_one gs n) (seen ++ select_one gs n)); [reflexivity|tauto].
    - cbn [app]. apply IH; auto. }
  specialize (G [] []). cbn [app] in G. change (if unique s then dedup [] else []) with (if unique s then @nil id else []) in G.
  replace (if unique s then @nil id else []) with (@nil id) in G by (destruct (unique s); auto). apply G. tauto.
Qed.
End Sel.
