(** C39 - C44: syntax tree edits, navigation, walking and selecting. *)
From Coq Require Import ZArith List Bool Arith Lia.
From Verif Require Import Base BaseProofs Tree TreeSpec TreeProofs TreeNav TreeNavSpec TreeNavProofs.
Import ListNotations.
Open Scope nat_scope.

(** ** C39 *)
Lemma allowed_ext n n' sz F e : (forall x, n x = n' x) -> allowed n sz F e -> allowed n' sz F e.
Proof.
  intros E. destruct e; cbn [allowed]; auto; try (rewrite E; auto).
  intros (A & B & C & D). repeat split; auto; try (intros ? ->; rewrite <- E; auto); eapply D; eauto.
Qed.
Lemma all_allowed_ext es : forall n n' sz F, (forall x, n x = n' x) -> all_allowed sz n F es -> all_allowed sz n' F es.
Proof.
  induction es as [|e es IH]; intros n n' sz F E; cbn [all_allowed]; auto.
  intros [A B]. split; [eapply allowed_ext; eauto|]. eapply IH; [|exact B].
  intros x. destruct e; cbn [nodes_after]; auto. unfold upd. destruct (x =? sz); auto.
Qed.

Lemma run_ok es : forall h F, OK h F -> all_allowed (size h) (isNode h) F es ->
  exists h', h_run h es = Some h' /\ OK h' (f_run (size h) F es).
Proof.
  induction es as [|e es IH]; intros h F HO A; cbn [h_run f_run]; [exists h; auto|].
  destruct A as [A1 A2]. destruct (edit_ok h F e HO A1) as (h1 & E1 & O1 & S1 & N1). rewrite E1. cbn [obind].
  rewrite <- S1 in A2 |- *. apply IH; auto. eapply all_allowed_ext; [|exact A2]. intros x. symmetry. apply N1.
Qed.

Lemma OK0 : OK heap0 forest0.
Proof.
  split; constructor; cbn [kids tops forest0 concat size heap0 isNode dseg]; auto; try (intros; constructor); try (intros; tauto).
  - intros H. lia.
  - intros [[]|(q & [])].
  - intros p q x [].
  - intros y [].
  - intros l [].
Qed.

Lemma consistent_nodes_ok h F : consistent h F <-> OK h F.
Proof. apply consistent_iff. Qed.

(** Every history of edits within the preconditions goes through, keeps all links
    consistent and does to the lists of children what the edits are meant to do. *)
Theorem tree_edits_consistent : forall es,
  all_allowed 0 (fun _ => false) forest0 es ->
  exists h, h_run heap0 es = Some h /\ consistent h (f_run 0 forest0 es).
Proof.
  intros es A. destruct (run_ok es heap0 forest0 OK0 A) as (h & E & O). exists h. split; auto.
  apply consistent_nodes_ok. exact O.
Qed.
Print Assumptions tree_edits_consistent.

(** The same for one edit on any consistent heap. *)
Theorem tree_edit_consistent : forall h F e,
  consistent h F -> allowed (isNode h) (size h) F e ->
  exists h', h_edit h e = Some h' /\ consistent h' (f_edit (size h) F e) /\ size h' = size h + news e.
Proof.
  intros h F e C A. apply consistent_nodes_ok in C. destruct (edit_ok h F e C A) as (h' & E & O & S & _).
  exists h'. split; auto. split; auto. apply consistent_nodes_ok. exact O.
Qed.
Print Assumptions tree_edit_consistent.

(** Non-vacuity: a history using every edit. *)
Definition demo_es : list edit :=
  [ENew true; ENew true; ENew false; ENew false; ENew true; ENew false; ENew false;
   EAddChild 0 (Some 1) None; EAddChild 1 (Some 2) None; EAddChild 1 (Some 3) (Some 2);
   EAppendChild (Some 0) (Some 4); EAppendChild (Some 4) (Some 5); EAppendChild (Some 0) (Some 6);
   EAppendSibling (Some 6) (Some 3); EPrependSibling (Some 1) (Some 5); EReplace (Some 2) (Some 6);
   ERemoveChild 1 (Some 6); EDetach (Some 5); EAppendChild (Some 4) (Some 2); EReplace (Some 4) None].
Lemma not_reach F (l : list id) c n : In c l -> (forall y, In y l -> incl (kids F y) l) -> ~ In n l -> ~ reach F c n.
Proof. intros C K N R. apply N. clear N. induction R as [|y z _ IH Z]; auto. eapply K; eauto. Qed.
Ltac not_reach l := apply (not_reach _ l); [vm_compute; tauto|
  let y := fresh in let H := fresh in let z := fresh in let K := fresh in
  intros y H z K; repeat (destruct H as [<-|H]); try destruct H; vm_compute in K |- *; tauto|
  vm_compute; intuition discriminate].
Ltac ok := cbn [exists_ news Nat.add]; first [exact I|lia|reflexivity].
Ltac inj := repeat match goal with E : Some _ = Some _ |- _ => injection E as <- end.
Ltac addc l := cbn [allowed]; do 4 (split; [ok|]); intros ? ?; inj; split; [vm_compute; tauto|not_reach l].
Ltac kid p := left; exists p; vm_compute; tauto.
Ltac alone := right; vm_compute; tauto.
Ltac appc t l := cbn [allowed]; do 2 (split; [ok|]); split; [intros ? ?; inj; ok|]; intros ? ? ? ?; inj; split; [t|not_reach l].
Ltac sib t l := cbn [allowed]; do 2 (split; [ok|]); intros ? ? ? ?; inj; split; [t|not_reach l].
Ltac no_adjacent := let p := fresh in let l1 := fresh in let l2 := fresh in let E := fresh in
  intros p l1 l2 E; do 7 (destruct p as [|p]; [vm_compute in E; repeat (destruct l1 as [|? l1]; [discriminate E|try discriminate E; injection E; clear E; intros E ?]); discriminate E|]);
  vm_compute in E; destruct l1; discriminate E.

Example demo_allowed : all_allowed 0 (fun _ => false) forest0 demo_es.
Proof.
  unfold demo_es. cbn [all_allowed].
  do 7 (split; [exact I|]).
  split; [addc [1]|]. split; [addc [2]|]. split; [addc [3]|].
  split; [appc alone [4]|]. split; [appc alone [5]|]. split; [appc alone [6]|].
  split; [sib ltac:(kid 1) [3]|]. split; [sib ltac:(kid 4) [5]|].
  split. { cbn [allowed]. do 2 (split; [ok|]). intros ? ? ? ?; inj. split; [exists 1; vm_compute; tauto|].
    split; [kid 0|]. split; [right; not_reach [6]|]. no_adjacent. }
  split. { cbn [allowed]. do 2 (split; [ok|]). ok. }
  split. { cbn [allowed]. ok. }
  split; [appc alone [2]|].
  split. { cbn [allowed]. do 2 (split; [ok|]). discriminate. }
  exact I.
Qed.
Example demo_result : exists h, h_run heap0 demo_es = Some h /\
  children h 9 (Some 0) = Some [1; 3] /\ children h 9 (Some 4) = Some [2] /\ parent h 4 = None /\
  concat (tops (f_run 0 forest0 demo_es)) = [4; 5; 6; 0].
Proof. eexists. split; [vm_compute; reflexivity|]. vm_compute. repeat split; reflexivity. Qed.

(** ** C40 *)
Lemma without_out x l : ~ In x l -> without x l = l.
Proof.
  induction l as [|y l IH]; intros H; [reflexivity|]. unfold without in *. cbn [filter].
  assert (y =? x = false) by (apply Nat.eqb_neq; intros ->; apply H; left; auto). rewrite H0. cbn [negb]. f_equal.
  apply IH. intros K. apply H. right; auto.
Qed.
Lemma put_instead_out o n l : ~ In o l -> put_instead o n l = l.
Proof.
  induction l as [|y l IH]; intros H; [reflexivity|]. unfold put_instead in *. cbn [map].
  assert (y =? o = false) by (apply Nat.eqb_neq; intros ->; apply H; left; auto). rewrite H0. f_equal.
  apply IH. intros K. apply H. right; auto.
Qed.
Lemma in_without x y l : In y (without x l) -> In y l.
Proof. unfold without. intros H. apply filter_In in H. tauto. Qed.

(** The new element takes the place of the old one, is nowhere else, and the old one
    stands alone with its subtree; nothing else moves.  Left out: the new element is the next
    sibling of the old one, or contains it, or the old one has no parent. *)
Theorem replace_in_place_partial : forall h F o n p l1 l2,
  consistent h F -> o < size h -> n < size h ->
  kids F p = l1 ++ o :: l2 -> n <> o -> movable F n -> ~ reach F n o ->
  (forall l3, l2 <> n :: l3) ->
  exists h' F', replace h (Some o) (Some n) = Some h' /\ consistent h' F' /\
    kids F' p = without n l1 ++ n :: without n l2 /\
    (forall q, q <> p -> kids F' q = without n (kids F q)) /\
    In [o] (tops F').
Proof.
  intros h F o n p l1 l2 C SO SN K NE MV NR NA. pose proof C as C0. apply consistent_nodes_ok in C. 
  assert (ND : NoDup (l1 ++ o :: l2)) by (rewrite <- K; apply (c_nodup _ _ C0)).
  assert (KO : In o (kids F p)) by (rewrite K; apply in_or_app; right; left; auto).
  pose proof (NoDup_remove_2 _ _ _ ND) as NI. rewrite in_app_iff in NI.
  assert (A : allowed (isNode h) (size h) F (EReplace (Some o) (Some n))).
  { cbn [allowed exists_]. split; auto. split; auto. intros ? ? E1 E2. inj. split; [exists p; auto|]. split; auto. split; auto.
    intros q m1 m2 E. assert (q = p).
    { apply (c_one_parent _ _ C0 q p o); auto. rewrite E. apply in_or_app; right; left; auto. }
    subst q. rewrite K in E.
    assert (l1 = m1 /\ l2 = n :: m2) as [_ E2].
    { clear -E NI. revert m1 E. induction l1 as [|y l1 IH]; intros [|z m1] E; cbn in E.
      - injection E as ->. auto.
      - injection E as -> ->. exfalso. apply NI. right. apply in_or_app; right; left; auto.
      - injection E as -> _. exfalso. apply NI. left. left; auto.
      - injection E as -> E2. destruct (IH ltac:(cbn in NI; tauto) m1 E2) as [-> ->]. auto. }
    exact (NA _ E2). }
  destruct (tree_edit_consistent h F _ C0 A) as (h' & E & C' & _).
  cbn [h_edit f_edit] in E, C'. apply Nat.eqb_neq in NE as NEB. rewrite NEB in C'.
  exists h', (loose (on_lists (fun l => put_instead o n (without n l)) F) o).
  split; auto. split; auto. cbn [loose on_lists kids tops]. split; [|split].
  - rewrite K. unfold without, put_instead. rewrite filter_app, map_app. cbn [filter].
    assert (o =? n = false) by (apply Nat.eqb_neq; congruence). rewrite H. cbn [negb map].
    rewrite Nat.eqb_refl.
    fold (without n l1) (without n l2) (put_instead o n (without n l1)) (put_instead o n (without n l2)).
    rewrite !put_instead_out; auto; intros Q; apply in_without in Q; tauto.
  - intros q Q. apply put_instead_out. intros I. apply in_without in I. apply Q.
    apply (c_one_parent _ _ C0 q p o); auto.
  - left. reflexivity.
Qed.
Print Assumptions replace_in_place_partial.

Definition three_children : list edit :=
  [ENew true; ENew false; ENew false; ENew false;
   EAppendChild (Some 0) (Some 1); EAppendChild (Some 0) (Some 2); EAppendChild (Some 0) (Some 3)].
Example three_allowed : all_allowed 0 (fun _ => false) forest0 three_children.
Proof.
  unfold three_children. cbn [all_allowed]. do 4 (split; [exact I|]).
  split; [appc alone [1]|]. split; [appc alone [2]|]. split; [appc alone [3]|]. exact I.
Qed.
Example replace_demo : exists h h', h_run heap0 three_children = Some h /\ replace h (Some 3) (Some 1) = Some h' /\
  children h' 9 (Some 0) = Some [2; 1].
Proof. do 2 eexists. split; [vm_compute; reflexivity|]. split; vm_compute; reflexivity. Qed.

(** Replacing an element with its next sibling takes both away; replacing the root of a
    tree panics. *)
Theorem replace_next_sibling_refuted : exists h h',
  h_run heap0 three_children = Some h /\ children h 9 (Some 0) = Some [1; 2; 3] /\
  replace h (Some 1) (Some 2) = Some h' /\ children h' 9 (Some 0) = Some [3] /\ parent h' 2 = None.
Proof. do 2 eexists. split; [vm_compute; reflexivity|]. split; [vm_compute; reflexivity|]. split; [vm_compute; reflexivity|]. split; vm_compute; reflexivity. Qed.
Print Assumptions replace_next_sibling_refuted.
Theorem replace_root_refuted : exists h,
  h_run heap0 [ENew true; ENew true] = Some h /\ replace h (Some 0) (Some 1) = None.
Proof. eexists. split; [vm_compute; reflexivity|]. vm_compute. reflexivity. Qed.
Print Assumptions replace_root_refuted.

(** ** C41 *)

(** Every walk ends, with the visitor called as [visit] prescribes. *)
Theorem walk_order : forall V (visitor : V -> stat -> V * Z) h F t (v : V),
  consistent h F -> is_tree F t -> root t < size h ->
  ends (fun n => option_map snd (walk h visitor n (Some (root t)) WalkLtr v)) (fst (fst (visit visitor 0 t v))) /\
  ends (fun n => option_map snd (walk h visitor n (Some (root t)) WalkRtl v)) (fst (fst (visit visitor 0 (mirror_tree t) v))).
Proof.
  intros V visitor h F t v C T S. apply consistent_nodes_ok in C. split.
  - apply (walk_ok visitor h h F WalkLtr (root t) eq_refl C t v T eq_refl S).
  - apply (walk_ok visitor h (mirror h) (mirrorF F) WalkRtl (root t) eq_refl (OK_mirror h F C) (mirror_tree t) v
      (is_tree_mirror F t T) (root_mirror t) S).
Qed.
Print Assumptions walk_order.

(** A visitor that never asks for anything sees every element of the subtree once, in
    document order. *)
Definition record_all (v : list id) (s : stat) : list id * Z := (v ++ [fst s], 0%Z).
Lemma visit_record t : forall lvl v, visit record_all lvl t v = (v ++ pre t, false, false).
Proof.
  induction t as [x ts IH] using rtree_ind'. intros lvl v. rewrite visit_eq. unfold record_all at 1. cbn [fst pre].
  assert (G : forall v, visits record_all (S lvl) ts v = (v ++ flat_map pre ts, false)).
  { clear v. induction ts as [|t ts IHts]; intros v; cbn [visits flat_map]; [rewrite app_nil_r; auto|].
    inversion IH as [|? ? I1 I2]; subst. rewrite I1, (IHts I2), app_assoc. reflexivity. }
  cbn. rewrite G, <- app_assoc. reflexivity.
Qed.
Theorem walk_visits_each_once : forall h F t,
  consistent h F -> is_tree F t -> root t < size h ->
  ends (fun n => option_map snd (walk h record_all n (Some (root t)) WalkLtr [])) (pre t) /\
  ends (fun n => option_map snd (walk h record_all n (Some (root t)) WalkRtl [])) (pre (mirror_tree t)) /\
  NoDup (pre t) /\ (forall y, In y (pre t) <-> reach F (root t) y).
Proof.
  intros h F t C T S. destruct (walk_order _ record_all h F t [] C T S) as [A B]. rewrite visit_record in A, B.
  apply consistent_nodes_ok in C. split; auto. split; auto. split; [eapply pre_nodup; eauto|]. apply in_pre_reach; auto.
Qed.
Print Assumptions walk_visits_each_once.

(** Every element is the root of a subtree, so the theorems about subtrees cover
    every element. *)
Theorem every_element_has_a_subtree : forall h F x, consistent h F -> x < size h -> exists t, root t = x /\ is_tree F t.
Proof. intros h F x C _. apply tree_exists, (c_finite _ _ C). Qed.
Print Assumptions every_element_has_a_subtree.

(** Once Step has returned nil it always will. *)
Theorem walker_stays_finished : forall h w f w', step h w f = (w', None) -> forall f', exists w'', step h w' f' = (w'', None).
Proof.
  intros h w f w' E f'.
  assert (R : wroot w' = None).
  { unfold step in E. destruct (has f WalkerStop); cbn [wroot wcurrent wmode wflags] in E; [injection E as <-; reflexivity|].
    destruct (wroot w) as [r|] eqn:ER; [|injection E as <-; auto]. destruct (wcurrent w) as [c|]; [|discriminate].
    destruct (if isNode h c && negb (has f WalkerSkipChildren) then _ else None); [discriminate|].
    revert c f E. induction (wflags w) as [|f1 l IH]; intros c f E; cbn [stepUp] in E.
    - destruct (c =? r); [injection E as <-; reflexivity|].
      destruct (if has f WalkerSkipSiblings then None else _); [discriminate|].
      destruct (parent h c); injection E as <-; reflexivity.
    - destruct (c =? r); [injection E as <-; reflexivity|].
      destruct (if has f WalkerSkipSiblings then None else _); [discriminate|].
      destruct (parent h c) as [p|]; [|injection E as <-; reflexivity].
      destruct l; [injection E as <-; reflexivity|]. eapply IH; eauto. }
  unfold step. destruct (has f' WalkerStop); cbn [wroot]; [eexists; reflexivity|]. rewrite R. eexists; reflexivity.
Qed.
Print Assumptions walker_stays_finished.

(** A tree, a visitor that skips, both directions. *)
Definition skipper (v : list stat) (s : stat) : list stat * Z :=
  (v ++ [s], if fst s =? 1 then WalkerSkipChildren else if fst s =? 4 then WalkerSkipSiblings else 0%Z).
Definition walk_es : list edit :=
  [ENew true; ENew true; ENew false; ENew false; ENew true; ENew false; ENew false;
   EAppendChild (Some 0) (Some 1); EAppendChild (Some 1) (Some 2); EAppendChild (Some 0) (Some 3);
   EAppendChild (Some 0) (Some 4); EAppendChild (Some 4) (Some 5); EAppendChild (Some 0) (Some 6)].
Example walk_allowed : all_allowed 0 (fun _ => false) forest0 walk_es.
Proof.
  unfold walk_es. cbn [all_allowed]. do 7 (split; [exact I|]).
  split; [appc alone [1]|]. split; [appc alone [2]|]. split; [appc alone [3]|].
  split; [appc alone [4]|]. split; [appc alone [5]|]. split; [appc alone [6]|]. exact I.
Qed.
Definition walk_tree := RT 0 [RT 1 [RT 2 []]; RT 3 []; RT 4 [RT 5 []]; RT 6 []].
Example walk_is_tree : is_tree (f_run 0 forest0 walk_es) walk_tree.
Proof. vm_compute. tauto. Qed.
Example walk_demo : exists h, h_run heap0 walk_es = Some h /\
  option_map snd (walk h record_all 20 (Some 0) WalkLtr []) = Some [0; 1; 2; 3; 4; 5; 6] /\
  option_map snd (walk h record_all 20 (Some 0) WalkRtl []) = Some [0; 6; 4; 5; 3; 1; 2] /\
  option_map snd (walk h skipper 20 (Some 0) WalkLtr []) = Some [(0, 0); (1, 1); (3, 1); (4, 1); (5, 2)] /\
  fst (fst (visit skipper 0 walk_tree [])) = [(0, 0); (1, 1); (3, 1); (4, 1); (5, 2)].
Proof. eexists. split; [vm_compute; reflexivity|]. repeat split; vm_compute; reflexivity. Qed.

(** ** C42 *)
Theorem first_last_token : forall h F t,
  consistent h F -> is_tree F t -> root t < size h ->
  ends (fun n => firstTokenElement h n (Some (root t))) (hd_error (tokens h (pre t))) /\
  ends (fun n => lastTokenElement h n (Some (root t))) (last_error (tokens h (pre t))).
Proof.
  intros h F t C T S. apply consistent_nodes_ok in C.
  split; [eapply first_token_ok; eauto|eapply last_token_ok; eauto].
Qed.
Print Assumptions first_last_token.

(** With the document being [b], the subtree [s] of the element, and [a]:
    NextTokenElement gives the first token of [a], PrevTokenElement the last one of
    [b], if every node has tokens; otherwise they may also give nil, but never a wrong
    token. *)
Theorem next_prev_token_partial : forall h F x,
  consistent h F -> x < size h ->
  exists b s a, in_document F x b s a /\
    (exists r, ends (fun n => nextTokenElement h n (Some x)) r /\ (r = hd_error (tokens h a) \/ r = None)) /\
    (exists r, ends (fun n => prevTokenElement h n (Some x)) r /\ (r = last_error (tokens h b) \/ r = None)) /\
    (all_have_tokens h F ->
       ends (fun n => nextTokenElement h n (Some x)) (hd_error (tokens h a)) /\
       ends (fun n => prevTokenElement h n (Some x)) (last_error (tokens h b))).
Proof.
  intros h F x C S. apply consistent_nodes_ok in C.
  destruct (token_nav h F x C S) as (b & s & a & D & (r1 & E1 & Q1) & (r2 & E2 & Q2)).
  exists b, s, a. split; auto. split; [|split].
  - exists r1. split; auto. tauto.
  - exists r2. split; auto. tauto.
  - intros AH. split; [destruct Q1 as [<-|[_ N]]; tauto|destruct Q2 as [<-|[_ N]]; tauto].
Qed.
Print Assumptions next_prev_token_partial.

(** In [walk_tree] with 4 emptied (5 detached): the next token after 3 is 6, but nil is
    returned since the next sibling, 4, has no tokens. *)
Theorem next_token_empty_node_refuted : exists h,
  h_run heap0 (walk_es ++ [EDetach (Some 5)]) = Some h /\
  children h 9 (Some 0) = Some [1; 3; 4; 6] /\ children h 9 (Some 4) = Some [] /\ isNode h 6 = false /\
  nextTokenElement h 9 (Some 3) = Some None /\ prevTokenElement h 9 (Some 6) = Some None.
Proof. eexists. split; [vm_compute; reflexivity|]. repeat split; vm_compute; reflexivity. Qed.
Print Assumptions next_token_empty_node_refuted.

Example token_nav_demo : exists h, h_run heap0 walk_es = Some h /\
  firstTokenElement h 9 (Some 0) = Some (Some 2) /\ lastTokenElement h 9 (Some 0) = Some (Some 6) /\
  nextTokenElement h 9 (Some 2) = Some (Some 3) /\ nextTokenElement h 9 (Some 3) = Some (Some 5) /\
  prevTokenElement h 9 (Some 6) = Some (Some 5) /\ prevTokenElement h 9 (Some 2) = Some None.
Proof. eexists. split; [vm_compute; reflexivity|]. repeat split; vm_compute; reflexivity. Qed.

(** ** C43 *)
Theorem element_lists : forall h F x, consistent h F -> x < size h ->
  ends (fun n => children h n (Some x)) (kids F x) /\
  (exists l, is_ancestors F x l /\ ends (fun n => ancestors h n (Some x)) l) /\
  (forall l1 l2, (In (l1 ++ x :: l2) (tops F) \/ exists p, l1 ++ x :: l2 = kids F p) ->
     ends (fun n => prevSiblings h n (Some x)) (rev l1) /\ ends (fun n => nextSiblings h n (Some x)) l2).
Proof.
  intros h F x C S. apply consistent_nodes_ok in C. split; [|split].
  - eapply children_ok; eauto.
  - eapply ancestors_ok; eauto.
  - intros l1 l2 L. split; [eapply prev_siblings_ok|eapply next_siblings_ok]; eauto.
Qed.
Print Assumptions element_lists.

(** Nth: the elements with the given indexes that are there, in the order of the
    indexes. *)
Definition at_index (els : list id) (i : Z) : list id :=
  if (i <? 0)%Z then [] else match nth_error els (Z.to_nat i) with Some x => [x] | None => [] end.
Theorem nth_elements : forall (ex : extractor) indexes el els,
  ex el = Some els -> nth ex indexes el = Some (flat_map (at_index els) indexes).
Proof.
  intros ex indexes el els E. unfold nth. rewrite E. cbn [obind].
  assert (G : forall res, nthLoop els indexes res = Some (res ++ flat_map (at_index els) indexes)).
  { induction indexes as [|i r IH]; intros res; cbn [nthLoop flat_map]; [rewrite app_nil_r; auto|].
    unfold at_index at 1. destruct (Z.ltb_spec i 0).
    - destruct (Z.leb_spec 0 i); [lia|]. cbn [andb app]. apply IH.
    - destruct (Z.leb_spec 0 i); [|lia]. cbn [andb]. destruct (Z.ltb_spec i (zlen els)).
      + unfold zget. destruct (Z.ltb_spec i 0); [lia|]. unfold zlen in *.
        destruct (nth_error els (Z.to_nat i)) eqn:EN; [|apply nth_error_None in EN; lia].
        cbn [obind]. rewrite IH, <- app_assoc. reflexivity.
      + destruct (nth_error els (Z.to_nat i)) eqn:EN; [|apply IH].
        assert (Z.to_nat i < length els) by (apply nth_error_Some; congruence). unfold zlen in *. lia. }
  apply G.
Qed.
Print Assumptions nth_elements.
Example nth_demo : exists h, h_run heap0 walk_es = Some h /\
  nth (fun n => children h 9 (Some n)) [3; -1; 0; 7; 3]%Z 0 = Some [6; 1; 6] /\
  ancestors h 9 (Some 5) = Some [4; 0] /\ prevSiblings h 9 (Some 4) = Some [3; 1] /\ nextSiblings h 9 (Some 4) = Some [6].
Proof. eexists. split; [vm_compute; reflexivity|]. repeat split; vm_compute; reflexivity. Qed.

(** ** C44 *)

(** [extracts valid e g]: on valid elements extractor [e] returns [g], again valid
    elements. *)
Theorem selector_pipeline : forall (valid : id -> Prop) s gs input,
  Forall2 (extracts valid) (extractors s) gs -> Forall valid (present input) ->
  apply s input = Some (let all := flat_map (select_one gs) (present input) in if unique s then dedup all else all).
Proof. intros. eapply apply_ok; eauto. Qed.
Print Assumptions selector_pipeline.

Theorem dedup_correct : forall l, NoDup (dedup l) /\ (forall x, In x (dedup l) <-> In x l) /\
  forall l1 l2, dedup (l1 ++ l2) = dedup l1 ++ filter (fun x => negb (member x l1)) (dedup l2).
Proof.
  intros l. split; [|split].
  - apply NoDup_rev, NoDup_nodup.
  - intros x. unfold dedup. rewrite <- in_rev, nodup_In, <- in_rev. tauto.
  - intros l1 l2. induction l2 as [|x l2 IH] using rev_ind; [cbn; rewrite !app_nil_r; auto|].
    rewrite app_assoc, !dedup_snoc, IH, existsb_app. unfold id in *. destruct (existsb (Nat.eqb x) l2) eqn:E2.
    + rewrite orb_true_r. reflexivity.
    + rewrite orb_false_r, filter_app. cbn [filter]. unfold member.
      destruct (existsb (Nat.eqb x) l1); cbn [negb]; [rewrite app_nil_r; reflexivity|rewrite app_assoc; reflexivity].
Qed.
Print Assumptions dedup_correct.

(** The steps.  Filters keep or drop; searches return what is found in the subtree. *)
Theorem filter_step : forall (valid : id -> Prop) s nf, extractors (withFilter s nf) = extractors s ++ [fun n => Some (if nf n then [n] else [])] /\
  unique (withFilter s nf) = unique s /\
  extracts valid (fun n => Some (if nf n then [n] else [])) (fun n => if nf n then [n] else []).
Proof.
  intros valid s nf. split; [reflexivity|]. split; [reflexivity|]. intros x V. split; auto. destruct (nf x); auto.
Qed.
Print Assumptions filter_step.

Lemma all_ends {B} (f : id -> nat -> option B) (r : id -> B) (m : nat) : (forall x, x < m -> ends (f x) (r x)) ->
  exists n0, forall n, n0 <= n -> forall x, x < m -> f x n = Some (r x).
Proof.
  induction m as [|m IH]; intros H; [exists 0; lia|].
  destruct IH as (n1 & E1); [intros; apply H; lia|]. destruct (H m ltac:(lia)) as (n2 & E2).
  exists (Nat.max n1 n2). intros n Hn x Hx. destruct (Nat.eq_dec x m) as [->|D]; [apply E2; lia|apply E1; lia].
Qed.

Lemma found_incl nf t : incl (found nf t) (pre t).
Proof.
  induction t as [x ts IH] using rtree_ind'. cbn [found pre]. destruct (nf x).
  - intros y [<-|[]]. left; auto.
  - intros y Hy. right. apply in_flat_map in Hy. destruct Hy as (t & Ht & Hy). apply in_flat_map. exists t. split; auto.
    rewrite Forall_forall in IH. apply IH; auto.
Qed.

Theorem search_step : forall h F s nf (deep : bool), consistent h F ->
  exists g : id -> list id,
    (forall t, is_tree F t -> g (root t) = if deep then found_deep nf t else found nf t) /\
    exists n0, forall n, n0 <= n -> exists e,
      extractors (search h n s nf deep) = extractors s ++ [e] /\ unique (search h n s nf deep) = unique s /\
      extracts (fun x => x < size h) e g.
Proof.
  intros h F s nf deep C. pose proof C as C0. apply consistent_nodes_ok in C.
  set (st := fun (n : nat) (x : id) => searchLoop h nf (if deep then 0 else WalkerSkipChildren)%Z n (newWalker (Some x) WalkLtr) 0 []).
  (* the subtree of each element, found by computing with enough fuel *)
  assert (P : forall m, exists ts : list rtree, length ts = m /\ forall x t, nth_error ts x = Some t -> root t = x /\ is_tree F t).
  { induction m as [|m (ts & L & H)]; [exists []; split; auto; intros [|]; discriminate|].
    destruct (tree_exists F m (c_finite _ _ C0)) as (t & R & T). exists (ts ++ [t]). split; [rewrite app_length; cbn; lia|].
    intros x t' E. destruct (Nat.lt_ge_cases x m) as [D|D].
    - rewrite nth_error_app1 in E by lia. auto.
    - rewrite nth_error_app2 in E by lia. rewrite L in E. destruct (x - m) as [|k] eqn:EK.
      + cbn in E. injection E as <-. split; [lia|auto].
      + destruct k; discriminate. }
  destruct (P (size h)) as (ts & L & H).
  set (g := fun x => match nth_error ts x with Some t => if deep then found_deep nf t else found nf t
                     | None => if deep then found_deep nf (RT x []) else found nf (RT x []) end).
  assert (G : forall t, is_tree F t -> g (root t) = if deep then found_deep nf t else found nf t).
  { intros t T. unfold g. destruct (nth_error ts (root t)) as [t'|] eqn:E.
    - destruct (H _ _ E) as [R T']. rewrite (tree_unique F t' t T' T R). reflexivity.
    - apply nth_error_None in E. rewrite L in E. destruct t as [x us]. cbn [root] in *.
      apply is_tree_eq in T. destruct T as [K T]. rewrite (c_fresh _ _ C0 x E) in K. destruct us; [|discriminate]. reflexivity. }
  exists g. split; auto.
  destruct (all_ends (fun x n => st n x) g (size h)) as (n0 & E).
  { intros x Hx. destruct (tree_exists F x (c_finite _ _ C0)) as (t & R & T). subst x. rewrite (G t T).
    apply (search_ok h F nf deep t C T Hx). }
  exists n0. intros n Hn. exists (st n). split; [reflexivity|]. split; [reflexivity|].
  intros x Hx. split; [apply E; auto|].
  destruct (tree_exists F x (c_finite _ _ C0)) as (t & R & T). subst x. rewrite (G t T).
  rewrite Forall_forall. intros y Hy. apply (reach_size h F C (root t)); auto. apply in_pre_reach; auto.
  destruct deep; [unfold found_deep in Hy; apply filter_In in Hy; tauto|apply (found_incl nf t); auto].
Qed.
Print Assumptions search_step.

(** Combinators of filters and extractors. *)
Theorem filter_combinators : forall fs (f : id -> bool) n,
  isNot f n = negb (f n) /\ isAny fs n = existsb (fun f => f n) fs /\ isAll fs n = forallb (fun f => f n) fs.
Proof.
  intros fs f n. split; [reflexivity|]. split.
  - induction fs as [|g fs IH]; cbn; auto. destruct (g n); auto.
  - induction fs as [|g fs IH]; cbn; auto. destruct (g n); auto.
Qed.
Print Assumptions filter_combinators.
Theorem extractor_combinators : forall (valid : id -> Prop) es gs, Forall2 (extracts valid) es gs ->
  extracts valid (exAll es) (fun n => flat_map (fun g => g n) gs) /\
  extracts valid (exAny es) (fun n => match find (fun l => match l with [] => false | _ => true end) (map (fun g => g n) gs) with
                                      | Some l => l | None => [] end).
Proof.
  intros valid es gs FE. split; intros x V.
  - unfold exAll.
    enough (G : (forall res, appendAll (fun ne : extractor => ne x) es res = Some (res ++ flat_map (fun g => g x) gs)) /\
                Forall valid (flat_map (fun g => g x) gs)) by (split; [apply (proj1 G)|apply G]).
    induction FE as [|e g es gs E _ [IH IV]]; cbn [appendAll flat_map].
    + split; [intros; rewrite app_nil_r; auto|constructor].
    + destruct (E x V) as [EE EV]. split; [|apply Forall_app; auto].
      intros res. rewrite EE. cbn [obind]. rewrite IH, app_assoc. reflexivity.
  - unfold exAny. induction FE as [|e g es gs E _ IH]; cbn [anyOf map find].
    + split; auto.
    + destruct (E x V) as [EE EV]. rewrite EE. cbn [obind]. destruct (g x) as [|y l]; auto.
Qed.
Print Assumptions extractor_combinators.

(** Children and the other lists can be steps of a selector. *)
Theorem list_steps : forall h F, consistent h F ->
  exists n0, forall n, n0 <= n ->
    extracts (fun x => x < size h) (fun x => children h n (Some x)) (kids F).
Proof.
  intros h F C. destruct (all_ends (fun x n => children h n (Some x)) (kids F) (size h)) as (n0 & E).
  { intros x Hx. apply (element_lists h F x C Hx). }
  exists n0. intros n Hn x Hx. split; [apply E; auto|]. rewrite Forall_forall. intros y Hy.
  apply (c_exists _ _ C). right. exists x; auto.
Qed.
Print Assumptions list_steps.

Example selector_demo : exists h, h_run heap0 walk_es = Some h /\
  apply (withUnique (search h 20 (withExtract newSelector (Some (fun n => children h 20 (Some n)))) (fun x => negb (isNode h x)) false))
    [Some 0; None; Some 4; Some 0] = Some [2; 3; 5; 6] /\
  apply (search h 20 newSelector (fun x => Nat.leb x 4) true) [Some 0] = Some [0; 1; 2; 3; 4] /\
  apply (search h 20 newSelector (fun x => Nat.leb 1 x && Nat.leb x 4) false) [Some 0] = Some [1; 3; 4].
Proof. eexists. split; [vm_compute; reflexivity|]. repeat split; vm_compute; reflexivity. Qed.
