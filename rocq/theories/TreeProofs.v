(** Lemmas about the tree links. *)
From Coq Require Import List Bool Arith Lia Relation_Operators Transitive_Closure.
From Verif Require Import Base Tree TreeSpec.
Import ListNotations.
Open Scope nat_scope.

(** ** Linked segments *)
Definition ohd (l : list id) (d : option id) : option id := match l with [] => d | x :: _ => Some x end.
Fixpoint olast (l : list id) (d : option id) : option id := match l with [] => d | x :: r => olast r (Some x) end.

Fixpoint dseg (h : heap) (pa pv : option id) (l : list id) (nx : option id) : Prop :=
  match l with
  | [] => True
  | x :: r => parent h x = pa /\ prev h x = pv /\ next h x = ohd r nx /\ dseg h pa (Some x) r nx
  end.

Lemma dseg_app h pa l1 : forall pv l2 nx,
  dseg h pa pv (l1 ++ l2) nx <-> dseg h pa pv l1 (ohd l2 nx) /\ dseg h pa (olast l1 pv) l2 nx.
Proof.
  induction l1 as [|x l1 IH]; intros pv l2 nx; cbn [app dseg olast].
  - tauto.
  - rewrite IH. destruct l1; cbn [app ohd]; tauto.
Qed.

Lemma olast_app l1 l2 d : olast (l1 ++ l2) d = olast l2 (olast l1 d).
Proof. revert d; induction l1; intros d; cbn; auto. Qed.

Lemma olast_cons_any l x d d' : olast (x :: l) d = olast (x :: l) d'.
Proof. reflexivity. Qed.

Lemma olast_in l x : olast l None = Some x -> In x l.
Proof.
  assert (G : forall l d x, olast l d = Some x -> In x l \/ d = Some x).
  { clear. induction l as [|y l IH]; intros d x H; cbn in H; [right; auto|].
    destruct (IH _ _ H) as [A|A]; [left; right; auto|]. injection A as ->. left; left; auto. }
  intros H. destruct (G _ _ _ H); [auto|discriminate].
Qed.
Lemma ohd_in l x : ohd l None = Some x -> In x l.
Proof. destruct l; cbn; [discriminate|]. intros [= ->]. auto. Qed.

Lemma olast_rev l : olast l None = hd_error (rev l).
Proof.
  destruct (rev l) as [|x r] eqn:E.
  - apply (f_equal (@rev _)) in E. rewrite rev_involutive in E. subst. reflexivity.
  - apply (f_equal (@rev _)) in E. rewrite rev_involutive in E. subst. cbn [rev]. rewrite olast_app. reflexivity.
Qed.
Lemma ohd_hd l : ohd l None = hd_error l.
Proof. destruct l; reflexivity. Qed.

(** The links of a segment from those of another heap. *)
Lemma dseg_change h h' pa l : forall pv nx pv' nx', dseg h pa pv l nx -> NoDup l ->
  (forall x, In x l -> parent h' x = pa) ->
  (forall x, ohd l None = Some x -> prev h' x = pv') ->
  (forall x, In x l -> ohd l None <> Some x -> prev h' x = prev h x) ->
  (forall x, olast l None = Some x -> next h' x = nx') ->
  (forall x, In x l -> olast l None <> Some x -> next h' x = next h x) ->
  dseg h' pa pv' l nx'.
Proof.
  induction l as [|x l IH]; intros pv nx pv' nx' H ND HP H1 H2 H3 H4; cbn [dseg]; auto.
  cbn [dseg] in H. destruct H as (A & B & C & D). inversion ND as [|? ? NI ND']; subst.
  split; [apply HP; left; auto|]. split; [apply H1; reflexivity|]. split.
  - destruct l as [|y l].
    + cbn [ohd]. apply H3. reflexivity.
    + rewrite H4; [exact C|left; auto|]. cbn [olast]. intros E. 
      apply NI. change (olast l (Some y)) with (olast (y :: l) None) in E. apply olast_in in E. exact E.
  - eapply (IH (Some x) nx (Some x) nx'); auto.
    + intros z Hz. apply HP. right; auto.
    + intros z Hz. destruct l as [|y l]; [discriminate|]. injection Hz as ->.
      rewrite H2; [|right; left; auto|cbn; intros [= ->]; apply NI; left; auto].
      cbn [dseg] in D. apply D.
    + intros z Hz Hn. apply H2; [right; auto|]. cbn. intros [= ->]. auto.
    + intros z Hz. apply H3. destruct l as [|y l]; [discriminate|]. exact Hz.
    + intros z Hz Hn. apply H4; [right; auto|]. destruct l as [|y l]; [destruct Hz|]. exact Hn.
Qed.

Lemma dseg_same h h' pa pv l nx : dseg h pa pv l nx ->
  (forall x, In x l -> parent h' x = parent h x /\ prev h' x = prev h x /\ next h' x = next h x) ->
  dseg h' pa pv l nx.
Proof.
  revert pv. induction l as [|x l IH]; intros pv H E; cbn [dseg] in *; auto.
  destruct (E x (or_introl eq_refl)) as (-> & -> & ->). destruct H as (A & B & C & D).
  split; auto. split; auto. split; auto. apply IH; auto. intros z Hz. apply E. right; auto.
Qed.

Lemma linked_dseg h pa l : linked h pa l <-> dseg h pa None l None.
Proof.
  assert (G : forall l pv, dseg h pa pv l None <->
     forall i x, nth_error l i = Some x ->
       parent h x = pa /\ prev h x = match i with O => pv | S j => nth_error l j end /\ next h x = nth_error l (S i)).
  { clear l. induction l as [|y l IH]; intros pv; cbn [dseg].
    - split; auto. intros _ i x H. destruct i; discriminate.
    - rewrite IH. split.
      + intros (A & B & C & D) i x H. destruct i as [|i]; cbn [nth_error] in H.
        * injection H as <-. split; [exact A|]. split; [exact B|]. rewrite C. destruct l; reflexivity.
        * destruct (D i x H) as (D1 & D2 & D3). split; auto. split; auto. rewrite D2. destruct i; reflexivity.
      + intros H. destruct (H 0 y eq_refl) as (A & B & C). split; auto. split; auto. split.
        * rewrite C. destruct l; reflexivity.
        * intros i x H0. destruct (H (S i) x H0) as (E0 & E & E1). split; auto. split; auto.
          rewrite E. destruct i; reflexivity. }
  unfold linked. rewrite G. reflexivity.
Qed.

(** ** List edits on decompositions *)
Lemma without_notin x l : ~ In x l -> without x l = l.
Proof.
  induction l as [|y l IH]; intros H; cbn; auto.
  destruct (y =? x) eqn:E; [apply Nat.eqb_eq in E; subst; exfalso; apply H; left; auto|].
  cbn. f_equal. apply IH. intros A. apply H. right; auto.
Qed.
Lemma without_app x l1 l2 : without x (l1 ++ l2) = without x l1 ++ without x l2.
Proof. apply filter_app. Qed.
Lemma without_mid x l1 l2 : NoDup (l1 ++ x :: l2) -> without x (l1 ++ x :: l2) = l1 ++ l2.
Proof.
  intros H. apply NoDup_remove_2 in H. rewrite in_app_iff in H.
  rewrite without_app. unfold without at 2. cbn [filter]. rewrite Nat.eqb_refl. cbn [negb]. fold (without x l2).
  rewrite (without_notin x l1), (without_notin x l2) by tauto. reflexivity.
Qed.
Lemma in_without x y l : In y (without x l) <-> In y l /\ y <> x.
Proof.
  unfold without. rewrite filter_In. rewrite negb_true_iff, Nat.eqb_neq. tauto.
Qed.
Lemma put_before_notin b x l : ~ In b l -> put_before b x l = l.
Proof.
  induction l as [|y l IH]; intros H; cbn; auto.
  destruct (y =? b) eqn:E; [apply Nat.eqb_eq in E; subst; exfalso; apply H; left; auto|].
  cbn. f_equal. apply IH. intros A. apply H. right; auto.
Qed.
Lemma put_after_notin b x l : ~ In b l -> put_after b x l = l.
Proof.
  induction l as [|y l IH]; intros H; cbn; auto.
  destruct (y =? b) eqn:E; [apply Nat.eqb_eq in E; subst; exfalso; apply H; left; auto|].
  cbn. f_equal. apply IH. intros A. apply H. right; auto.
Qed.
Lemma put_instead_notin b x l : ~ In b l -> put_instead b x l = l.
Proof.
  induction l as [|y l IH]; intros H; cbn; auto.
  destruct (y =? b) eqn:E; [apply Nat.eqb_eq in E; subst; exfalso; apply H; left; auto|].
  cbn. f_equal. apply IH. intros A. apply H. right; auto.
Qed.
Lemma put_before_mid b x l1 l2 : NoDup (l1 ++ b :: l2) -> put_before b x (l1 ++ b :: l2) = l1 ++ x :: b :: l2.
Proof.
  intros H. apply NoDup_remove_2 in H. rewrite in_app_iff in H.
  replace (put_before b x (l1 ++ b :: l2)) with (put_before b x l1 ++ put_before b x (b :: l2)) by (symmetry; apply flat_map_app).
  replace (put_before b x (b :: l2)) with ([x; b] ++ put_before b x l2)
    by (cbn; rewrite Nat.eqb_refl; reflexivity).
  rewrite (put_before_notin b x l1), (put_before_notin b x l2) by tauto. reflexivity.
Qed.
Lemma put_after_mid b x l1 l2 : NoDup (l1 ++ b :: l2) -> put_after b x (l1 ++ b :: l2) = l1 ++ b :: x :: l2.
Proof.
  intros H. apply NoDup_remove_2 in H. rewrite in_app_iff in H.
  replace (put_after b x (l1 ++ b :: l2)) with (put_after b x l1 ++ put_after b x (b :: l2)) by (symmetry; apply flat_map_app).
  replace (put_after b x (b :: l2)) with ([b; x] ++ put_after b x l2)
    by (cbn; rewrite Nat.eqb_refl; reflexivity).
  rewrite (put_after_notin b x l1), (put_after_notin b x l2) by tauto. reflexivity.
Qed.
Lemma put_instead_mid b x l1 l2 : NoDup (l1 ++ b :: l2) -> put_instead b x (l1 ++ b :: l2) = l1 ++ x :: l2.
Proof.
  intros H. apply NoDup_remove_2 in H. rewrite in_app_iff in H.
  replace (put_instead b x (l1 ++ b :: l2)) with (put_instead b x l1 ++ put_instead b x (b :: l2)) by (symmetry; apply map_app).
  replace (put_instead b x (b :: l2)) with (x :: put_instead b x l2)
    by (cbn; rewrite Nat.eqb_refl; reflexivity).
  rewrite (put_instead_notin b x l1), (put_instead_notin b x l2) by tauto. reflexivity.
Qed.
Lemma member_spec x l : member x l = true <-> In x l.
Proof.
  unfold member. rewrite existsb_exists. split.
  - intros (y & H & E). apply Nat.eqb_eq in E. subst. auto.
  - intros H. exists x. split; auto. apply Nat.eqb_refl.
Qed.
Lemma member_false x l : member x l = false <-> ~ In x l.
Proof. rewrite <- not_true_iff_false, member_spec. reflexivity. Qed.

(** The update functions of fields *)
Lemma upd_eq {A} (f : id -> A) x v : upd f x v x = v.
Proof. unfold upd. rewrite Nat.eqb_refl. reflexivity. Qed.
Lemma upd_neq {A} (f : id -> A) x v y : y <> x -> upd f x v y = f y.
Proof. intros H. unfold upd. apply Nat.eqb_neq in H. rewrite H. reflexivity. Qed.

Ltac updt := repeat first [rewrite upd_eq | rewrite upd_neq by (auto; congruence)].

(** ** Consistency of a forest without the links (for the composition of edits) *)
Record wf (sz : nat) (nodes : id -> bool) (F : forest) : Prop := {
  w_token : forall p, nodes p = false -> kids F p = [];
  w_exists : forall x, x < sz <-> In x (concat (tops F)) \/ has_parent F x;
  w_fresh : forall p, sz <= p -> kids F p = [];
  w_nodup : forall p, NoDup (kids F p);
  w_one_parent : forall p q x, In x (kids F p) -> In x (kids F q) -> p = q;
  w_tops_nodup : NoDup (concat (tops F));
  w_top_or_kid : forall p x, In x (kids F p) -> ~ In x (concat (tops F));
  w_finite : well_founded (fun x p => In x (kids F p))
}.
Record links (h : heap) (F : forest) : Prop := {
  l_kids : forall p, dseg h (Some p) None (kids F p) None;
  l_tops : forall l, In l (tops F) -> dseg h None None l None;
  l_ends : forall p, p < size h -> firstChild h p = ohd (kids F p) None /\ lastChild h p = olast (kids F p) None
}.
Lemma consistent_iff h F : consistent h F <-> wf (size h) (isNode h) F /\ links h F.
Proof.
  split.
  - intros [K T E K2 X FR ND OP TN TK FI]. split; constructor; auto.
    + intros p. apply linked_dseg. auto.
    + intros l Hl. rewrite Forall_forall in T. apply linked_dseg. auto.
    + intros p Hp. rewrite olast_rev, ohd_hd. auto.
  - intros [[K2 X FR ND OP TN TK FI] [K T E]]. constructor; auto.
    + intros p. apply linked_dseg. auto.
    + apply Forall_forall. intros l Hl. apply linked_dseg. auto.
    + intros p Hp. rewrite <- olast_rev, <- ohd_hd. auto.
Qed.

(** ** Forest side *)
#[global] Arguments without : simpl never.
#[global] Arguments put_before : simpl never.
#[global] Arguments put_after : simpl never.
#[global] Arguments put_instead : simpl never.
#[global] Arguments upd : simpl never.
Lemma concat_without x ls : concat (map (without x) ls) = without x (concat ls).
Proof. induction ls as [|l ls IH]; cbn; auto. rewrite IH, without_app. reflexivity. Qed.
Lemma concat_flat (g : id -> list id) ls : concat (map (flat_map g) ls) = flat_map g (concat ls).
Proof. induction ls as [|l ls IH]; cbn; auto. rewrite IH, flat_map_app. reflexivity. Qed.
Lemma NoDup_without x l : NoDup l -> NoDup (without x l).
Proof. apply NoDup_filter. Qed.
Lemma in_put_after t x l y : In y (put_after t x l) <-> In y l \/ (y = x /\ In t l).
Proof.
  unfold put_after. rewrite in_flat_map. split.
  - intros (z & Hz & H). destruct (z =? t) eqn:E.
    + apply Nat.eqb_eq in E. subst z. destruct H as [<-|[<-|[]]]; auto.
    + destruct H as [<-|[]]; auto.
  - intros [H|[-> H]].
    + exists y. split; auto. destruct (y =? t); left; auto.
    + exists t. split; auto. rewrite Nat.eqb_refl. right; left; auto.
Qed.
Lemma in_put_before t x l y : In y (put_before t x l) <-> In y l \/ (y = x /\ In t l).
Proof.
  unfold put_before. rewrite in_flat_map. split.
  - intros (z & Hz & H). destruct (z =? t) eqn:E.
    + apply Nat.eqb_eq in E. subst z. destruct H as [<-|[<-|[]]]; auto.
    + destruct H as [<-|[]]; auto.
  - intros [H|[-> H]].
    + exists y. split; auto. destruct (y =? t); [right|]; left; auto.
    + exists t. split; auto. rewrite Nat.eqb_refl. left; auto.
Qed.
Lemma NoDup_put_after t x l : NoDup l -> ~ In x l -> NoDup (put_after t x l).
Proof.
  intros H N. destruct (in_dec Nat.eq_dec t l) as [I|I]; [|rewrite put_after_notin; auto].
  destruct (in_split _ _ I) as (l1 & l2 & ->). rewrite put_after_mid by auto.
  enough (E : NoDup ((l1 ++ [t]) ++ x :: l2)) by (rewrite <- app_assoc in E; exact E).
  apply (NoDup_Add (Add_app x (l1 ++ [t]) l2)).
  rewrite <- app_assoc. cbn. auto.
Qed.
Lemma NoDup_put_before t x l : NoDup l -> ~ In x l -> NoDup (put_before t x l).
Proof.
  intros H N. destruct (in_dec Nat.eq_dec t l) as [I|I]; [|rewrite put_before_notin; auto].
  destruct (in_split _ _ I) as (l1 & l2 & ->). rewrite put_before_mid by auto.
  apply (NoDup_Add (Add_app x l1 (t :: l2))). auto.
Qed.

Lemma wf_ends sz nodes F p x : wf sz nodes F -> In x (kids F p) -> p < sz /\ x < sz /\ x <> p.
Proof.
  intros W H. split; [|split].
  - destruct (Nat.lt_ge_cases p sz) as [|G]; auto. rewrite (w_fresh _ _ _ W p G) in H. destruct H.
  - apply (w_exists _ _ _ W). right. exists p. auto.
  - intros ->. pose proof (w_finite _ _ _ W p) as A. induction A as [p _ IH]. eauto.
Qed.

(** Taking an element out of its parent. *)
Lemma wf_loosen sz nodes F p x : wf sz nodes F -> In x (kids F p) -> wf sz nodes (loose (on_lists (without x) F) x).
Proof.
  intros W H. pose proof (w_top_or_kid _ _ _ W p x H) as NT. constructor; cbn [kids tops loose on_lists].
  - intros q Hq. rewrite (w_token _ _ _ W q Hq). reflexivity.
  - intros y. rewrite (w_exists _ _ _ W y). cbn [concat app]. rewrite concat_without. cbn [In].
    rewrite in_without. unfold has_parent. cbn [kids on_lists loose]. split.
    + intros [A|(q & A)].
      * left. right. split; auto. intros ->. auto.
      * destruct (Nat.eq_dec y x) as [->|N]; [left; left; auto|right; exists q; apply in_without; auto].
    + intros [[<-|[A _]]|(q & A)]; [right; exists p; auto|left; auto|].
      apply in_without in A. right. exists q. tauto.
  - intros q Hq. rewrite (w_fresh _ _ _ W q Hq). reflexivity.
  - intros q. apply NoDup_without, (w_nodup _ _ _ W).
  - intros q r y A B. apply in_without in A. apply in_without in B. apply (w_one_parent _ _ _ W q r y); tauto.
  - cbn [concat app]. rewrite concat_without. constructor; [rewrite in_without; tauto|].
    apply NoDup_without, (w_tops_nodup _ _ _ W).
  - intros q y A. apply in_without in A. cbn [concat app]. rewrite concat_without. cbn [In]. rewrite in_without.
    intros [->|[B _]]; [tauto|]. apply (w_top_or_kid _ _ _ W q y); tauto.
  - intros y. pose proof (w_finite _ _ _ W y) as A. induction A as [y _ IH]. constructor.
    intros z Hz. apply in_without in Hz. apply IH. tauto.
Qed.

(** Putting a loose element below a node. *)
Lemma wf_attach sz nodes F n x L G : wf sz nodes F -> In [x] (tops F) -> n < sz -> nodes n = true -> ~ reach F x n ->
  NoDup L -> (forall y, In y L <-> y = x \/ In y (kids F n)) ->
  (forall p, kids G p = if p =? n then L else kids F p) ->
  tops G = map (without x) (tops F) -> wf sz nodes G.
Proof.
  intros W HX HN HNo HR ND HL HK HT.
  assert (XT : In x (concat (tops F))) by (apply in_concat; exists [x]; split; [auto|left; auto]).
  assert (NK : forall p, ~ In x (kids F p)).
  { intros p A. exact (w_top_or_kid _ _ _ W p x A XT). }
  assert (KI : forall p y, In y (kids G p) <-> In y (kids F p) \/ (p = n /\ y = x)).
  { intros p y. rewrite HK. destruct (p =? n) eqn:E.
    - apply Nat.eqb_eq in E. subst p. rewrite HL. tauto.
    - apply Nat.eqb_neq in E. tauto. }
  constructor.
  - intros p Hp. rewrite HK. destruct (p =? n) eqn:E; [apply Nat.eqb_eq in E; congruence|]. apply (w_token _ _ _ W p Hp).
  - intros y. rewrite (w_exists _ _ _ W y), HT, concat_without, in_without. unfold has_parent. split.
    + intros [A|(q & A)].
      * destruct (Nat.eq_dec y x) as [->|N]; [right; exists n; apply KI; auto|left; auto].
      * right. exists q. apply KI. auto.
    + intros [[A _]|(q & A)]; [left; auto|]. apply KI in A. destruct A as [A|[-> ->]]; [right; exists q; auto|left; auto].
  - intros p Hp. rewrite HK. destruct (p =? n) eqn:E; [apply Nat.eqb_eq in E; lia|]. apply (w_fresh _ _ _ W p Hp).
  - intros p. rewrite HK. destruct (p =? n); auto. apply (w_nodup _ _ _ W).
  - intros p q y A B. apply KI in A. apply KI in B.
    destruct A as [A|[-> ->]], B as [B|[-> EB]]; auto.
    + apply (w_one_parent _ _ _ W p q y A B).
    + subst y. destruct (NK _ A).
    + destruct (NK _ B).
  - rewrite HT, concat_without. apply NoDup_without, (w_tops_nodup _ _ _ W).
  - intros p y A. rewrite HT, concat_without, in_without. apply KI in A. intros [B N].
    destruct A as [A|[-> ->]]; auto. apply (w_top_or_kid _ _ _ W p y A B).
  - set (R := fun a p => In a (kids G p)).
    assert (BELOW : forall y, Acc (fun a p => In a (kids F p)) y -> reach F x y -> Acc R y).
    { intros y A. induction A as [y _ IH]. intros RY. constructor. intros z Hz. apply KI in Hz.
      destruct Hz as [Hz|[-> _]]; [|contradiction]. apply IH; auto. eapply reach_kid; eauto. }
    intros y. pose proof (w_finite _ _ _ W y) as A. induction A as [y _ IH]. constructor.
    intros z Hz. apply KI in Hz. destruct Hz as [Hz|[-> ->]]; [apply IH; auto|].
    apply BELOW; [apply (w_finite _ _ _ W)|constructor].
Qed.

(** Reordering the elements without parent. *)
Lemma wf_tops sz nodes F G : wf sz nodes F -> (forall p, kids G p = kids F p) ->
  NoDup (concat (tops G)) -> (forall y, In y (concat (tops G)) <-> In y (concat (tops F))) -> wf sz nodes G.
Proof.
  intros W HK ND HI. constructor; auto.
  - intros p Hp. rewrite HK. apply (w_token _ _ _ W p Hp).
  - intros y. rewrite HI, (w_exists _ _ _ W y). unfold has_parent. split; (intros [A|(q & A)]; [left; auto|right; exists q]);
      rewrite ?HK in *; auto.
  - intros p Hp. rewrite HK. apply (w_fresh _ _ _ W p Hp).
  - intros p. rewrite HK. apply (w_nodup _ _ _ W).
  - intros p q y. rewrite !HK. apply (w_one_parent _ _ _ W).
  - intros p y. rewrite HK, HI. apply (w_top_or_kid _ _ _ W).
  - intros y. pose proof (w_finite _ _ _ W y) as A. induction A as [y _ IH]. constructor.
    intros z Hz. rewrite HK in Hz. auto.
Qed.

(** ** Link side *)
Lemma olast_app_none l1 x l2 : olast (l1 ++ x :: l2) None = olast (x :: l2) None.
Proof. rewrite olast_app. reflexivity. Qed.
Lemma ohd_app l1 l2 d : ohd (l1 ++ l2) d = ohd l1 (ohd l2 d).
Proof. destruct l1; reflexivity. Qed.
Lemma olast_default l d : l <> [] -> olast l d = olast l None.
Proof. destruct l; [congruence|reflexivity]. Qed.

Lemma top_list_unique F x l1 l2 : NoDup (concat (tops F)) -> In l1 (tops F) -> In l2 (tops F) -> In x l1 -> In x l2 -> l1 = l2.
Proof.
  generalize (tops F). clear F. induction l as [|l ls IH]; intros ND A B X Y; [destruct A|].
  cbn [concat] in ND.
  assert (DJ : forall z, In z l -> In z (concat ls) -> False).
  { clear -ND. induction l as [|a l IH]; intros z Hz Hc; [destruct Hz|]. cbn [app] in ND. inversion ND; subst.
    destruct Hz as [->|Hz]; [apply H1; apply in_or_app; auto|]. eapply IH; eauto. }
  assert (ND2 : NoDup (concat ls)) by (clear -ND; induction l; cbn [app] in ND; auto; inversion ND; auto).
  destruct A as [<-|A], B as [<-|B]; auto.
  - exfalso. apply (DJ x X). apply in_concat. eauto.
  - exfalso. apply (DJ x Y). apply in_concat. eauto.
Qed.
Lemma nodup_top F l : NoDup (concat (tops F)) -> In l (tops F) -> NoDup l.
Proof.
  generalize (tops F). clear F. induction l0 as [|l0 ls IH]; intros ND A; [destruct A|]. cbn [concat] in ND.
  destruct A as [<-|A].
  - clear -ND. induction l0 as [|a l0 IH]; [constructor|]. cbn [app] in ND. inversion ND; subst. constructor; auto.
    intros H. apply H1. apply in_or_app. auto.
  - apply IH; auto. clear -ND. induction l0; cbn [app] in ND; auto. inversion ND; auto.
Qed.

(** Position of an element in a linked segment. *)
Lemma dseg_at h pa l1 x l2 : dseg h pa None (l1 ++ x :: l2) None ->
  parent h x = pa /\ prev h x = olast l1 None /\ next h x = ohd l2 None.
Proof. rewrite dseg_app. cbn [dseg]. tauto. Qed.

Section Ops.
Variables (h : heap) (F : forest).
Hypothesis W : wf (size h) (isNode h) F.
Hypothesis LK : links h F.

Lemma kid_not p x q : In x (kids F p) -> q <> p -> ~ In x (kids F q).
Proof. intros A N B. apply N. apply (w_one_parent _ _ _ W q p x B A). Qed.
Lemma kid_not_top p x l : In x (kids F p) -> In l (tops F) -> ~ In x l.
Proof. intros A B C. apply (w_top_or_kid _ _ _ W p x A). apply in_concat. eauto. Qed.

Lemma parent_kid p x : In x (kids F p) -> parent h x = Some p.
Proof.
  intros H. destruct (in_split _ _ H) as (l1 & l2 & E). pose proof (l_kids _ _ LK p) as D. rewrite E in D.
  apply dseg_at in D. tauto.
Qed.
Lemma parent_top x : In x (concat (tops F)) -> parent h x = None.
Proof.
  intros H. apply in_concat in H. destruct H as (l & Hl & H).
  destruct (in_split _ _ H) as (l1 & l2 & E). pose proof (l_tops _ _ LK l Hl) as D. rewrite E in D.
  apply dseg_at in D. tauto.
Qed.
Lemma parent_inv p x : x < size h -> parent h x = Some p -> In x (kids F p).
Proof.
  intros HX HP. apply (w_exists _ _ _ W) in HX. destruct HX as [A|(q & A)].
  - rewrite (parent_top x A) in HP. discriminate.
  - rewrite (parent_kid q x A) in HP. injection HP as <-. auto.
Qed.

Lemma remove_ok p c : In c (kids F p) ->
  links (removeChild h p (Some c)) (loose (on_lists (without c) F) c) /\
  size (removeChild h p (Some c)) = size h /\ isNode (removeChild h p (Some c)) = isNode h.
Proof.
  intros HC. destruct (in_split _ _ HC) as (l1 & l2 & E).
  pose proof (l_kids _ _ LK p) as D. rewrite E in D.
  pose proof (dseg_at _ _ _ _ _ D) as (P1 & P2 & P3).
  pose proof (w_nodup _ _ _ W p) as ND. rewrite E in ND.
  pose proof (NoDup_remove_1 _ _ _ ND) as ND'. pose proof (NoDup_remove_2 _ _ _ ND) as NC. rewrite in_app_iff in NC.
  unfold removeChild. rewrite P1. cbn [eqId]. rewrite Nat.eqb_refl. cbn [negb]. rewrite P2, P3.
  set (h' := match ohd l2 None with None => _ | Some _ => _ end).
  assert (SZ : size h' = size h) by (unfold h'; destruct (ohd l2 None), (olast l1 None); reflexivity).
  assert (IN : isNode h' = isNode h) by (unfold h'; destruct (ohd l2 None), (olast l1 None); reflexivity).
  assert (PA : forall x, parent h' x = upd (parent h) c None x)
    by (intros x; unfold h'; destruct (ohd l2 None), (olast l1 None); reflexivity).
  assert (PV : forall x, prev h' x = match ohd l2 None with Some n => upd (upd (prev h) c None) n (olast l1 None) x | None => upd (prev h) c None x end)
    by (intros x; unfold h'; destruct (ohd l2 None), (olast l1 None); reflexivity).
  assert (NX : forall x, next h' x = match olast l1 None with Some n => upd (upd (next h) c None) n (ohd l2 None) x | None => upd (next h) c None x end)
    by (intros x; unfold h'; destruct (ohd l2 None), (olast l1 None); reflexivity).
  assert (FC : forall x, firstChild h' x = match olast l1 None with Some n => firstChild h x | None => upd (firstChild h) p (ohd l2 None) x end)
    by (intros x; unfold h'; destruct (ohd l2 None), (olast l1 None); reflexivity).
  assert (LC : forall x, lastChild h' x = match ohd l2 None with Some n => lastChild h x | None => upd (lastChild h) p (olast l1 None) x end)
    by (intros x; unfold h'; destruct (ohd l2 None), (olast l1 None); reflexivity).
  clearbody h'. split; [|split; auto].
  assert (OUT : forall x, ~ In x (kids F p) -> parent h' x = parent h x /\ prev h' x = prev h x /\ next h' x = next h x).
  { intros x Hx. rewrite E, in_app_iff in Hx. cbn [In] in Hx.
    assert (x <> c) by (intros ->; tauto). rewrite PA, PV, NX.
    destruct (ohd l2 None) as [n|] eqn:E2, (olast l1 None) as [m|] eqn:E1; updt; auto;
      try (apply ohd_in in E2; assert (x <> n) by (intros ->; tauto));
      try (apply olast_in in E1; assert (x <> m) by (intros ->; tauto)); updt; auto. }
  constructor; cbn [kids tops loose on_lists].
  - intros q. destruct (Nat.eq_dec q p) as [->|NQ].
    + rewrite E, without_mid by auto. rewrite dseg_app.
      rewrite dseg_app in D. cbn [dseg ohd] in D. destruct D as (D1 & _ & _ & _ & D2).
      split.
      * eapply dseg_change; [exact D1| | | | | |].
        -- clear -ND'. induction l1; [constructor|]. cbn in ND'. inversion ND'; subst. constructor; auto.
           intros H; apply H1, in_or_app; auto.
        -- intros x Hx. rewrite PA, upd_neq by (intros ->; tauto). apply parent_kid. rewrite E. apply in_or_app; auto.
        -- intros x Hx. pose proof (ohd_in _ _ Hx) as IX. destruct l1 as [|y l1]; [discriminate|]. injection Hx as ->.
           rewrite PV. cbn [dseg] in D1. destruct (ohd l2 None) as [n|] eqn:E2.
           ++ assert (x <> n). { intros ->. apply ohd_in in E2. clear -ND' E2. cbn in ND'. inversion ND'. apply H1, in_or_app; auto. }
              rewrite !upd_neq by (auto; intros ->; tauto). tauto.
           ++ rewrite upd_neq by (intros ->; tauto). tauto.
        -- intros x Hx _. rewrite PV.
           destruct (ohd l2 None) as [n|] eqn:E2.
           ++ assert (x <> n). { intros ->. apply ohd_in in E2. clear -ND' E2 Hx. 
                destruct (in_split _ _ Hx) as (a & b & ->). rewrite <- app_assoc in ND'. apply NoDup_remove_2 in ND'.
                apply ND'. rewrite !in_app_iff. auto. }
              rewrite !upd_neq by (auto; intros ->; tauto). auto.
           ++ rewrite upd_neq by (intros ->; tauto). auto.
        -- intros x Hx. rewrite NX. rewrite Hx. rewrite upd_eq. reflexivity.
        -- intros x Hx Hn. rewrite NX. destruct (olast l1 None) as [m|] eqn:E1.
           ++ rewrite upd_neq by congruence. rewrite upd_neq by (intros ->; tauto). auto.
           ++ rewrite upd_neq by (intros ->; tauto). auto.
      * eapply dseg_change; [exact D2| | | | | |].
        -- clear -ND'. induction l1; auto. cbn in ND'. inversion ND'; auto.
        -- intros x Hx. rewrite PA, upd_neq by (intros ->; tauto). apply parent_kid. rewrite E. apply in_or_app; right; right; auto.
        -- intros x Hx. rewrite PV, Hx, upd_eq. reflexivity.
        -- intros x Hx Hn. rewrite PV. destruct (ohd l2 None) as [n|] eqn:E2.
           ++ rewrite upd_neq by congruence. rewrite upd_neq by (intros ->; tauto). auto.
           ++ rewrite upd_neq by (intros ->; tauto). auto.
        -- intros x Hx. pose proof (olast_in _ _ Hx) as IX. rewrite NX.
           assert (XN : next h x = None).
           { destruct (in_split _ _ IX) as (a & b & E3). pose proof (l_kids _ _ LK p) as DD. rewrite E, E3 in DD.
             replace (l1 ++ c :: a ++ x :: b) with ((l1 ++ c :: a) ++ x :: b) in DD by (rewrite <- app_assoc; reflexivity).
             apply dseg_at in DD. destruct DD as (_ & _ & ->). destruct b as [|y b]; auto.
             exfalso. rewrite E3, olast_app_none in Hx. cbn [olast] in Hx.
             change (olast b (Some y)) with (olast (y :: b) None) in Hx. apply olast_in in Hx.
             rewrite E3 in ND'. rewrite app_assoc in ND'. apply NoDup_remove_2 in ND'. apply ND'. rewrite !in_app_iff. auto. }
           destruct (olast l1 None) as [m|] eqn:E1.
           ++ assert (x <> m). { intros ->. apply olast_in in E1. destruct (in_split _ _ E1) as (a & b & ->).
                rewrite <- app_assoc in ND'. apply NoDup_remove_2 in ND'. apply ND'. rewrite !in_app_iff. auto. }
              rewrite !upd_neq by (auto; intros ->; tauto). auto.
           ++ rewrite upd_neq by (intros ->; tauto). auto.
        -- intros x Hx _. rewrite NX. destruct (olast l1 None) as [m|] eqn:E1.
           ++ assert (x <> m). { intros ->. apply olast_in in E1. destruct (in_split _ _ E1) as (a & b & ->).
                rewrite <- app_assoc in ND'. apply NoDup_remove_2 in ND'. apply ND'. rewrite !in_app_iff. auto. }
              rewrite !upd_neq by (auto; intros ->; tauto). auto.
           ++ rewrite upd_neq by (intros ->; tauto). auto.
    + rewrite without_notin by (apply (kid_not p); auto).
      eapply dseg_same; [apply (l_kids _ _ LK q)|]. intros x Hx. apply OUT. apply (kid_not q); auto.
  - intros l [<-|Hl].
    + cbn [dseg ohd]. rewrite PA, PV, NX, upd_eq.
      destruct (ohd l2 None) as [n|] eqn:E2, (olast l1 None) as [m|] eqn:E1; 
      try (apply ohd_in in E2; assert (c <> n) by (intros ->; tauto));
      try (apply olast_in in E1; assert (c <> m) by (intros ->; tauto)); updt; auto.
    + apply in_map_iff in Hl. destruct Hl as (l0 & <- & Hl).
      rewrite without_notin by (apply (kid_not_top p); auto).
      eapply dseg_same; [apply (l_tops _ _ LK l0 Hl)|]. intros x Hx. apply OUT.
      intros A. apply (kid_not_top p x l0 A Hl Hx).
  - intros q Hq. rewrite SZ in Hq. rewrite FC, LC. destruct (l_ends _ _ LK q Hq) as [E1 E2].
    destruct (Nat.eq_dec q p) as [->|NQ].
    + rewrite E in *. rewrite without_mid by auto. rewrite ohd_app in *. cbn [ohd] in E1.
      rewrite olast_app in *. cbn [olast] in E2. split.
      * destruct l1 as [|a l1]; cbn [olast ohd].
        -- rewrite upd_eq. reflexivity.
        -- destruct (olast l1 (Some a)) eqn:EE; [exact E1|].
           clear -EE. exfalso. revert a EE. induction l1; cbn; intros; [discriminate|]. eauto.
      * destruct l2 as [|a l2]; cbn [olast ohd]; [apply upd_eq|exact E2].
    + rewrite without_notin by (apply (kid_not p); auto).
      destruct (olast l1 None), (ohd l2 None); rewrite ?upd_neq by auto; auto.
Qed.

(** Putting the loose [c] between [l1] and [l2]. *)
Record inserted (h' : heap) (pa : option id) (l1 : list id) (c : id) (l2 : list id) : Prop := {
  i_size : size h' = size h;
  i_node : isNode h' = isNode h;
  i_parent : forall x, parent h' x = if x =? c then pa else parent h x;
  i_prev : forall x, prev h' x = if x =? c then olast l1 None else if eqId (ohd l2 None) (Some x) then Some c else prev h x;
  i_next : forall x, next h' x = if x =? c then ohd l2 None else if eqId (olast l1 None) (Some x) then Some c else next h x
}.

Lemma eqId_true a x : eqId a (Some x) = true <-> a = Some x.
Proof.
  destruct a as [y|]; cbn; [|split; discriminate]. rewrite Nat.eqb_eq. split; congruence.
Qed.

Lemma NoDup_app_inv {A} (l1 l2 : list A) : NoDup (l1 ++ l2) ->
  NoDup l1 /\ NoDup l2 /\ forall x, In x l1 -> ~ In x l2.
Proof.
  induction l1 as [|a l1 IH]; cbn; intros H; [split; [constructor|split; auto]|].
  inversion H as [|? ? N1 N2]; subst. destruct (IH N2) as (A1 & A2 & A3). rewrite in_app_iff in N1.
  split; [constructor; tauto|]. split; auto. intros x [->|Hx]; auto.
Qed.

Lemma insert_dseg h' pa l1 c l2 : inserted h' pa l1 c l2 -> NoDup (l1 ++ l2) -> ~ In c (l1 ++ l2) ->
  dseg h pa None (l1 ++ l2) None -> dseg h' pa None (l1 ++ c :: l2) None.
Proof.
  intros [_ _ PA PV NX] ND NC D. destruct (NoDup_app_inv _ _ ND) as (N1 & N2 & N3). rewrite in_app_iff in NC.
  assert (CQ : forall x l, In x l -> (In c l -> False) -> (x =? c) = false).
  { intros x l Hx Hc. apply Nat.eqb_neq. intros ->. auto. }
  assert (EF : forall a x, a <> Some x -> eqId a (Some x) = false).
  { intros a x N. apply not_true_iff_false. rewrite eqId_true. auto. }
  assert (PP : forall x, In x (l1 ++ l2) -> parent h x = pa).
  { intros x Hx. destruct (in_split _ _ Hx) as (a & b & E). rewrite E in D. apply dseg_at in D. tauto. }
  rewrite dseg_app in D. destruct D as [D1 D2].
  rewrite dseg_app. cbn [dseg ohd]. split; [|split; [|split; [|split]]].
  - eapply dseg_change; [exact D1|auto| | | | |].
    + intros x Hx. rewrite PA, (CQ x l1) by (auto; tauto). apply PP. apply in_or_app; auto.
    + intros x Hx. pose proof (ohd_in _ _ Hx) as IX. rewrite PV, (CQ x l1), EF by (auto; try tauto; intros A; apply ohd_in in A; eapply N3; eauto).
      destruct l1 as [|y l1]; [discriminate|]. injection Hx as ->. cbn [dseg] in D1. tauto.
    + intros x Hx _. rewrite PV, (CQ x l1), EF by (auto; try tauto; intros A; apply ohd_in in A; eapply N3; eauto). auto.
    + intros x Hx. pose proof (olast_in _ _ Hx) as IX. rewrite NX, (CQ x l1), Hx by (auto; tauto). cbn. rewrite Nat.eqb_refl. auto.
    + intros x Hx Hn. rewrite NX, (CQ x l1), EF by (auto; tauto). auto.
  - rewrite PA, Nat.eqb_refl. auto.
  - rewrite PV, Nat.eqb_refl. auto.
  - rewrite NX, Nat.eqb_refl. auto.
  - eapply dseg_change; [exact D2|auto| | | | |].
    + intros x Hx. rewrite PA, (CQ x l2) by (auto; tauto). apply PP. apply in_or_app; auto.
    + intros x Hx. pose proof (ohd_in _ _ Hx) as IX. rewrite PV, (CQ x l2), Hx by (auto; tauto). cbn. rewrite Nat.eqb_refl. auto.
    + intros x Hx Hn. rewrite PV, (CQ x l2), EF by (auto; tauto). auto.
    + intros x Hx. pose proof (olast_in _ _ Hx) as IX.
      rewrite NX, (CQ x l2), EF by (auto; try tauto; intros A; apply olast_in in A; eapply N3; eauto).
      destruct (in_split _ _ IX) as (a & b & E3). rewrite E3 in D2. rewrite dseg_app in D2. cbn [dseg] in D2.
      destruct D2 as (_ & _ & _ & -> & _). destruct b as [|y b]; auto. exfalso.
      rewrite E3, olast_app_none in Hx. cbn [olast] in Hx.
      change (olast b (Some y)) with (olast (y :: b) None) in Hx. apply olast_in in Hx.
      rewrite E3 in N2. apply NoDup_remove_2 in N2. apply N2. rewrite in_app_iff. auto.
    + intros x Hx _. rewrite NX, (CQ x l2), EF by (auto; try tauto; intros A; apply olast_in in A; eapply N3; eauto). auto.
Qed.

Lemma insert_out h' pa l1 c l2 x : inserted h' pa l1 c l2 -> ~ In x (l1 ++ l2) -> x <> c ->
  parent h' x = parent h x /\ prev h' x = prev h x /\ next h' x = next h x.
Proof.
  intros [_ _ PA PV NX] N NC. rewrite PA, PV, NX. rewrite (proj2 (Nat.eqb_neq x c) NC). rewrite in_app_iff in N.
  split; auto. split.
  - destruct (eqId (ohd l2 None) (Some x)) eqn:E; auto. apply eqId_true in E. apply ohd_in in E. tauto.
  - destruct (eqId (olast l1 None) (Some x)) eqn:E; auto. apply eqId_true in E. apply olast_in in E. tauto.
Qed.

Lemma loose_links c : In [c] (tops F) -> parent h c = None /\ prev h c = None /\ next h c = None.
Proof. intros H. pose proof (l_tops _ _ LK _ H) as D. cbn [dseg ohd] in D. tauto. Qed.
Lemma loose_only c l : In [c] (tops F) -> In l (tops F) -> In c l -> l = [c].
Proof. intros A B C. apply (top_list_unique F c); auto; [apply (w_tops_nodup _ _ _ W)|left; auto]. Qed.
Lemma loose_not_kid c p : In [c] (tops F) -> ~ In c (kids F p).
Proof. intros A B. apply (kid_not_top p c [c] B A). left; auto. Qed.

(** Inserting below [n]. *)
Lemma insert_kid_ok h' n l1 c l2 G : In [c] (tops F) -> n < size h -> isNode h n = true -> ~ reach F c n ->
  kids F n = l1 ++ l2 -> inserted h' (Some n) l1 c l2 ->
  (forall p, firstChild h' p = if p =? n then ohd (l1 ++ c :: l2) None else firstChild h p) ->
  (forall p, lastChild h' p = if p =? n then olast (l1 ++ c :: l2) None else lastChild h p) ->
  (forall p, kids G p = if p =? n then l1 ++ c :: l2 else kids F p) ->
  tops G = map (without c) (tops F) ->
  wf (size h') (isNode h') G /\ links h' G.
Proof.
  intros HC HN HNo HR E INS FC LC HK HT. pose proof (loose_not_kid c n HC) as NC. rewrite E in NC.
  pose proof (w_nodup _ _ _ W n) as ND. rewrite E in ND. split.
  - rewrite (i_size _ _ _ _ _ INS), (i_node _ _ _ _ _ INS).
    eapply (wf_attach _ _ F n c (l1 ++ c :: l2)); eauto.
    + apply (NoDup_Add (Add_app c l1 l2)). auto.
    + intros y. rewrite E, !in_app_iff. cbn [In]. intuition congruence.
  - constructor.
    + intros p. rewrite HK. destruct (p =? n) eqn:EP.
      * apply Nat.eqb_eq in EP. subst p. eapply insert_dseg; eauto. rewrite <- E. apply (l_kids _ _ LK).
      * apply Nat.eqb_neq in EP. eapply dseg_same; [apply (l_kids _ _ LK)|]. intros x Hx.
        eapply insert_out; eauto.
        -- rewrite <- E. apply (kid_not p); auto.
        -- intros ->. eapply loose_not_kid; eauto.
    + intros l Hl. rewrite HT in Hl. apply in_map_iff in Hl. destruct Hl as (l0 & <- & Hl).
      destruct (in_dec Nat.eq_dec c l0) as [I|I].
      * rewrite (loose_only c l0 HC Hl I). unfold without. cbn [filter]. rewrite Nat.eqb_refl. exact Logic.I.
      * rewrite without_notin by auto. eapply dseg_same; [apply (l_tops _ _ LK _ Hl)|]. intros x Hx.
        eapply insert_out; eauto; [|intros ->; auto].
        rewrite <- E. intros A. apply (kid_not_top n x l0 A Hl Hx).
    + intros p Hp. rewrite (i_size _ _ _ _ _ INS) in Hp. rewrite FC, LC, HK.
      destruct (p =? n); auto. apply (l_ends _ _ LK p Hp).
Qed.

(** Inserting next to an element without parent. *)
Lemma insert_top_ok h' l1 c l2 G g : In [c] (tops F) -> In (l1 ++ l2) (tops F) -> ~ In c (l1 ++ l2) ->
  inserted h' None l1 c l2 ->
  (forall p, firstChild h' p = firstChild h p) -> (forall p, lastChild h' p = lastChild h p) ->
  (forall p, kids G p = kids F p) -> tops G = map g (tops F) ->
  g (l1 ++ l2) = l1 ++ c :: l2 -> g [c] = [] ->
  (forall l, In l (tops F) -> ~ In c l -> (forall x, In x l -> ~ In x (l1 ++ l2)) -> g l = l) ->
  NoDup (concat (tops G)) -> (forall y, In y (concat (tops G)) <-> In y (concat (tops F))) ->
  wf (size h') (isNode h') G /\ links h' G.
Proof.
  intros HC HL NC INS FC LC HK HT G1 G2 G3 ND HI. split.
  - rewrite (i_size _ _ _ _ _ INS), (i_node _ _ _ _ _ INS). eapply wf_tops; eauto.
  - constructor.
    + intros p. rewrite HK. eapply dseg_same; [apply (l_kids _ _ LK)|]. intros x Hx.
      eapply insert_out; eauto.
      * intros A. exact (kid_not_top p x _ Hx HL A).
      * intros ->. exact (loose_not_kid c p HC Hx).
    + intros l Hl. rewrite HT in Hl. apply in_map_iff in Hl. destruct Hl as (l0 & <- & Hl).
      destruct (in_dec Nat.eq_dec c l0) as [I|I].
      * rewrite (loose_only c l0 HC Hl I), G2. exact Logic.I.
      * destruct (existsb (fun x => member x (l1 ++ l2)) l0) eqn:EX.
        -- apply existsb_exists in EX. destruct EX as (x & X1 & X2). apply member_spec in X2.
           rewrite (top_list_unique F x l0 (l1 ++ l2)) by (auto; apply (w_tops_nodup _ _ _ W)).
           rewrite G1. eapply insert_dseg; eauto.
           ++ apply (nodup_top F); auto. apply (w_tops_nodup _ _ _ W).
           ++ apply (l_tops _ _ LK _ HL).
        -- assert (DJ : forall x, In x l0 -> ~ In x (l1 ++ l2)).
           { intros x X1 X2. apply not_true_iff_false in EX. apply EX. apply existsb_exists. exists x.
             split; auto. apply member_spec; auto. }
           rewrite G3 by auto. eapply dseg_same; [apply (l_tops _ _ LK _ Hl)|]. intros x Hx.
           eapply insert_out; eauto. intros ->; auto.
    + intros p Hp. rewrite (i_size _ _ _ _ _ INS) in Hp. rewrite FC, LC, HK. apply (l_ends _ _ LK p Hp).
Qed.

(** ** The primitives *)
Definition addlast n c := upd_kids (on_lists (without c) F) n (kids (on_lists (without c) F) n ++ [c]).

Lemma kids_without_loose c p : In [c] (tops F) -> without c (kids F p) = kids F p.
Proof. intros H. apply without_notin. apply loose_not_kid; auto. Qed.

Lemma add_last_ok n c : In [c] (tops F) -> n < size h -> isNode h n = true -> ~ reach F c n ->
  wf (size (addChild h n (Some c) None)) (isNode (addChild h n (Some c) None)) (addlast n c) /\
  links (addChild h n (Some c) None) (addlast n c).
Proof.
  intros HC HN HNo HR. pose proof (loose_links c HC) as (LP & LV & LN).
  destruct (l_ends _ _ LK n HN) as [E1 E2]. cbn [addChild lastChild setParent]. rewrite E2.
  pose proof (loose_not_kid c n HC) as NC.
  assert (CN : forall m, olast (kids F n) None = Some m -> m <> c) by (intros m A ->; apply olast_in in A; auto).
  set (h' := setLast _ n (Some c)).
  assert (RES : inserted h' (Some n) (kids F n) c []).
  { constructor; unfold h'; destruct (olast (kids F n) None) as [m|] eqn:EL; try reflexivity;
      intros x; cbn [parent prev next setLast setNext setPrev setParent setFirst eqId ohd]; unfold upd.
    - destruct (x =? c) eqn:EX; auto. apply Nat.eqb_eq in EX. subst. auto.
    - destruct (x =? m) eqn:EM.
      + apply Nat.eqb_eq in EM. subst x. rewrite (proj2 (Nat.eqb_neq m c) (CN m eq_refl)). rewrite Nat.eqb_refl. auto.
      + rewrite (Nat.eqb_sym m x), EM. destruct (x =? c) eqn:EX; auto. apply Nat.eqb_eq in EX. subst. auto.
    - destruct (x =? c) eqn:EX; auto. apply Nat.eqb_eq in EX. subst. auto. }
  eapply (insert_kid_ok h' n (kids F n) c []); eauto.
  - rewrite app_nil_r; auto.
  - intros p. unfold h'. destruct (olast (kids F n) None) as [m|] eqn:EL;
      cbn [firstChild setLast setNext setPrev setParent setFirst]; unfold upd; destruct (p =? n) eqn:EP; auto.
    + apply Nat.eqb_eq in EP. subst p. rewrite E1. destruct (kids F n); [discriminate|reflexivity].
    + destruct (kids F n) as [|y l]; [reflexivity|]. exfalso. clear -EL. cbn in EL. revert y EL. induction l; cbn; intros; [discriminate|]. eauto.
  - intros p. rewrite olast_app. cbn [olast]. unfold h'. destruct (olast (kids F n) None) as [m|] eqn:EL;
      cbn [lastChild setLast setNext setPrev setParent setFirst]; unfold upd; destruct (p =? n) eqn:EP; auto.
  - intros p. unfold addlast, upd_kids. cbn [kids on_lists]. unfold upd. rewrite !(kids_without_loose c) by auto.
    destruct (p =? n); auto.
Qed.

Definition addbefore b c := on_lists (fun l => put_before b c (without c l)) F.

Lemma add_before_ok n b c : In [c] (tops F) -> n < size h -> isNode h n = true -> ~ reach F c n -> In b (kids F n) ->
  wf (size (addChild h n (Some c) (Some b))) (isNode (addChild h n (Some c) (Some b))) (addbefore b c) /\
  links (addChild h n (Some c) (Some b)) (addbefore b c).
Proof.
  intros HC HN HNo HR HB. pose proof (loose_links c HC) as (LP & LV & LN).
  destruct (in_split _ _ HB) as (l1 & l2 & E).
  pose proof (l_kids _ _ LK n) as D. rewrite E in D. pose proof (dseg_at _ _ _ _ _ D) as (P1 & P2 & P3).
  destruct (l_ends _ _ LK n HN) as [E1 E2]. cbn [addChild]. rewrite P1. cbn [eqId]. rewrite Nat.eqb_refl. cbn [negb].
  cbn [prev setParent]. rewrite P2.
  pose proof (loose_not_kid c n HC) as NC. rewrite E, in_app_iff in NC. cbn [In] in NC.
  pose proof (w_nodup _ _ _ W n) as ND. rewrite E in ND. pose proof (NoDup_remove_2 _ _ _ ND) as NB. rewrite in_app_iff in NB.
  assert (CM : forall m, olast l1 None = Some m -> m <> c) by (intros m A ->; apply olast_in in A; auto).
  assert (CB : b <> c) by tauto.
  set (h' := match olast l1 None with None => _ | Some _ => _ end).
  assert (RES : inserted h' (Some n) l1 c (b :: l2)).
  { constructor; unfold h'; destruct (olast l1 None) as [m|] eqn:EL; try reflexivity;
      intros x; cbn [parent prev next setLast setNext setPrev setParent setFirst eqId ohd]; unfold upd;
      try (rewrite (Nat.eqb_sym b x)); try (rewrite (Nat.eqb_sym m x)); destruct (x =? c) eqn:EX; auto.
    apply Nat.eqb_eq in EX. subst x. rewrite (proj2 (Nat.eqb_neq c m)); auto. intros ->. eapply CM; eauto. }
  eapply (insert_kid_ok h' n l1 c (b :: l2)); eauto.
  - intros p. unfold h'. destruct (olast l1 None) as [m|] eqn:EL;
      cbn [firstChild setLast setNext setPrev setParent setFirst]; unfold upd; destruct (p =? n) eqn:EP; auto.
    + apply Nat.eqb_eq in EP. subst p. rewrite E1, E. destruct l1; [discriminate|reflexivity].
    + destruct l1 as [|y l]; [reflexivity|]. exfalso. clear -EL. cbn in EL. revert y EL. induction l; cbn; intros; [discriminate|]. eauto.
  - intros p. rewrite olast_app. cbn [olast]. unfold h'. destruct (olast l1 None) as [m|] eqn:EL;
      cbn [lastChild setLast setNext setPrev setParent setFirst]; unfold upd; destruct (p =? n) eqn:EP; auto;
      apply Nat.eqb_eq in EP; subst p; rewrite E2, E, olast_app; reflexivity.
  - intros p. unfold addbefore. cbn [kids on_lists]. rewrite (kids_without_loose c) by auto.
    destruct (p =? n) eqn:EP.
    + apply Nat.eqb_eq in EP. subst p. rewrite E, put_before_mid by auto. reflexivity.
    + apply put_before_notin. apply (kid_not n); auto. apply Nat.eqb_neq in EP. auto.
  - unfold addbefore. cbn [tops on_lists]. apply map_ext_in. intros l Hl. apply put_before_notin.
    rewrite in_without. intros [A _]. apply (kid_not_top n b l); auto.
Qed.
End Ops.

(** ** Composite edits *)
Definition OK (h : heap) (F : forest) : Prop := wf (size h) (isNode h) F /\ links h F.
Definition ne (l : list id) : bool := match l with [] => false | _ => true end.
Definition nonempty (ls : list (list id)) := filter ne ls.

Lemma concat_nonempty ls : concat (nonempty ls) = concat ls.
Proof.
  induction ls as [|l ls IH]; auto. unfold nonempty in *. cbn [filter]. destruct l; cbn [ne concat app]; rewrite IH; auto.
Qed.
Lemma OK_feq h G G' : OK h G -> (forall p, kids G' p = kids G p) -> nonempty (tops G') = nonempty (tops G) -> OK h G'.
Proof.
  intros [W LK] HK HT.
  assert (HC : concat (tops G') = concat (tops G)) by (rewrite <- (concat_nonempty (tops G')), HT; apply concat_nonempty).
  split.
  - eapply wf_tops; eauto; rewrite HC; [apply (w_tops_nodup _ _ _ W)|tauto].
  - constructor.
    + intros p. rewrite HK. apply (l_kids _ _ LK).
    + intros l Hl. destruct l as [|x l]; [exact I|].
      assert (In (x :: l) (nonempty (tops G))).
      { rewrite <- HT. apply filter_In. auto. }
      apply filter_In in H. apply (l_tops _ _ LK). tauto.
    + intros p Hp. rewrite HK. apply (l_ends _ _ LK p Hp).
Qed.

Lemma without_idem x l : without x (without x l) = without x l.
Proof. apply without_notin. rewrite in_without. tauto. Qed.

Lemma child_insert h F n c l1 l2 G : OK h F -> In [c] (tops F) -> n < size h -> isNode h n = true -> ~ reach F c n ->
  kids F n = l1 ++ l2 ->
  (forall p, kids G p = if p =? n then l1 ++ c :: l2 else kids F p) ->
  nonempty (tops G) = nonempty (map (without c) (tops F)) ->
  OK (addChild h n (Some c) (ohd l2 None)) G.
Proof.
  intros [W LK] HC HN HNo HR E HK HT.
  destruct l2 as [|b l2].
  - cbn [ohd]. eapply OK_feq; [exact (add_last_ok h F W LK n c HC HN HNo HR)| |exact HT].
    intros p. rewrite HK. unfold addlast. cbn [kids upd_kids on_lists]. unfold upd.
    rewrite !(kids_without_loose h F W c) by auto. rewrite app_nil_r in E. rewrite <- E. reflexivity.
  - cbn [ohd].
    assert (HB : In b (kids F n)) by (rewrite E; apply in_or_app; right; left; auto).
    eapply OK_feq; [exact (add_before_ok h F W LK n b c HC HN HNo HR HB)| |].
    + intros p. rewrite HK. unfold addbefore. cbn [kids on_lists].
      rewrite !(kids_without_loose h F W c) by auto. destruct (p =? n) eqn:EP.
      * apply Nat.eqb_eq in EP. subst p. rewrite E, put_before_mid; auto. rewrite <- E. apply (w_nodup _ _ _ W).
      * rewrite put_before_notin; auto. eapply (kid_not h F W n); eauto. apply Nat.eqb_neq in EP. auto.
    + rewrite HT. unfold addbefore. cbn [tops on_lists]. f_equal. apply map_ext_in. intros l Hl.
      symmetry. apply put_before_notin. rewrite in_without. intros [A _]. apply (kid_not_top h F W n b l); auto.
Qed.

Lemma detach_top h F x : OK h F -> In x (concat (tops F)) -> detach h (Some x) = h.
Proof. intros [W LK] H. unfold detach. rewrite (parent_top h F LK x H). reflexivity. Qed.

Lemma detach_kid h F p x : OK h F -> In x (kids F p) ->
  OK (detach h (Some x)) (loose (on_lists (without x) F) x) /\ size (detach h (Some x)) = size h /\ isNode (detach h (Some x)) = isNode h.
Proof.
  intros [W LK] H. unfold detach. rewrite (parent_kid h F LK p x H).
  destruct (remove_ok h F W LK p x H) as (A & B & C). split; [|auto].
  split; [|exact A]. rewrite B, C. eapply wf_loosen; eauto.
Qed.

Lemma reach_sub F G x y : (forall p z, In z (kids G p) -> In z (kids F p)) -> reach G x y -> reach F x y.
Proof. intros H. induction 1; [constructor|econstructor; eauto]. Qed.

(** A movable element stands alone after Detach. *)
Lemma detach_movable h F x : OK h F -> movable F x ->
  exists F', OK (detach h (Some x)) F' /\ In [x] (tops F') /\ size (detach h (Some x)) = size h /\
    isNode (detach h (Some x)) = isNode h /\
    (forall p, kids F' p = without x (kids F p)) /\
    nonempty (map (without x) (tops F')) = nonempty (map (without x) (tops F)) /\
    (forall l, In l (tops F) -> ~ In x l -> In l (tops F')).
Proof.
  intros HO [(p & HP)|HT].
  - destruct (detach_kid h F p x HO HP) as (A & B & C).
    exists (loose (on_lists (without x) F) x). split; [auto|]. split; [left; auto|]. split; auto. split; auto.
    split; [intros q; reflexivity|]. split.
    + cbn [tops loose on_lists map]. unfold without at 1. cbn [filter]. rewrite Nat.eqb_refl. cbn [negb filter nonempty ne].
      rewrite map_map. unfold nonempty. f_equal. apply map_ext. intros l. apply without_idem.
    + intros l Hl HN. right. apply in_map_iff. exists l. split; auto. apply without_notin; auto.
  - exists F. rewrite (detach_top h F x HO) by (apply in_concat; exists [x]; split; [auto|left; auto]).
    split; auto. split; auto. split; auto. split; auto. split; [|split; auto].
    intros p. symmetry. apply without_notin. destruct HO as [W LK]. eapply loose_not_kid; eauto.
Qed.

Lemma movable_size h F x : OK h F -> movable F x -> x < size h.
Proof.
  intros [W _] H. apply (w_exists _ _ _ W). destruct H as [(p & H)|H]; [right; exists p; auto|left].
  apply in_concat. exists [x]. split; [auto|left; auto].
Qed.

Lemma nonempty_put_without (g : list id -> list id) x ls :
  (forall l, In l ls -> g (without x l) = without x l) ->
  nonempty (map (fun l => g (without x l)) ls) = nonempty (map (without x) ls).
Proof. intros H. f_equal. apply map_ext_in. auto. Qed.

Lemma append_child_ok h F n c : OK h F -> movable F c -> n < size h -> isNode h n = true -> ~ reach F c n ->
  OK (appendChild h (Some n) (Some c)) (upd_kids (on_lists (without c) F) n (kids (on_lists (without c) F) n ++ [c])) /\
  size (appendChild h (Some n) (Some c)) = size h /\ isNode (appendChild h (Some n) (Some c)) = isNode h.
Proof.
  intros HO HM HN HNo HR. destruct (detach_movable h F c HO HM) as (F' & HO' & HC & S1 & S2 & HK & HT & _).
  unfold appendChild. split; [|split].
  - change None with (ohd [] None). eapply (child_insert _ F' n c (kids F' n) []); eauto.
    + rewrite S1; auto.
    + rewrite S2; auto.
    + intros R. apply HR. eapply reach_sub; [|exact R]. intros p z. rewrite HK, in_without. tauto.
    + rewrite app_nil_r; auto.
    + intros p. cbn [kids upd_kids on_lists]. unfold upd. rewrite !HK. destruct (p =? n) eqn:E; auto.
  - rewrite <- S1. cbn [addChild]. destruct (lastChild _ _); reflexivity.
  - rewrite <- S2. cbn [addChild]. destruct (lastChild _ _); reflexivity.
Qed.

Lemma addChild_size h n c b : size (addChild h n c b) = size h /\ isNode (addChild h n c b) = isNode h.
Proof.
  unfold addChild. destruct c as [c|]; [|auto]. destruct b as [b|].
  - destruct (negb _); auto. cbn [prev setParent]. destruct (prev h b); auto.
  - destruct (lastChild _ _); auto.
Qed.

(** Placing a loose element right after / before an element. *)
Lemma place_ok h F t e (after : bool) : OK h F -> In [e] (tops F) -> t < size h -> ~ reach F e t ->
  let h' := if after
            then match parent h t with
                 | None =>
                     let nx := next h t in
                     let h1 := setNext (setNext (setPrev h e (Some t)) e nx) t (Some e) in
                     match nx with None => h1 | Some nx => setPrev h1 nx (Some e) end
                 | Some pa => addChild h pa (Some e) (next h t)
                 end
            else match parent h t with
                 | None =>
                     let p := prev h t in
                     let h1 := setPrev (setNext (setPrev h e p) e (Some t)) t (Some e) in
                     match p with None => h1 | Some p => setNext h1 p (Some e) end
                 | Some pa => addChild h pa (Some e) (Some t)
                 end in
  let g := fun l => (if after then put_after t e else put_before t e) (without e l) in
  OK h' (on_lists g F) /\ size h' = size h /\ isNode h' = isNode h.
Proof.
  intros HO HE HT HR h' g. pose proof HO as [W LK].
  assert (NTE : t <> e) by (intros ->; apply HR; constructor).
  assert (GN : forall l, ~ In t l -> g l = without e l).
  { intros l N. unfold g. destruct after; [apply put_after_notin|apply put_before_notin]; rewrite in_without; tauto. }
  assert (GT : nonempty (map g (tops F)) = nonempty (map (without e) (tops F)) \/ In t (concat (tops F))).
  { destruct (in_dec Nat.eq_dec t (concat (tops F))) as [I|I]; [right; auto|left].
    f_equal. apply map_ext_in. intros l Hl. apply GN. intros A. apply I. apply in_concat. eauto. }
  apply (w_exists _ _ _ W) in HT. destruct HT as [HT|(pa & HT)].
  - (* no parent *)
    apply in_concat in HT. destruct HT as (l & Hl & HT).
    assert (Pt : parent h t = None) by (apply (parent_top h F LK); apply in_concat; eauto).
    assert (NE : ~ In e l).
    { intros A. rewrite (loose_only h F W e l HE Hl A) in HT. destruct HT as [->|[]]; auto. }
    destruct (in_split _ _ HT) as (l1 & l2 & ->).
    pose proof (dseg_at _ _ _ _ _ (l_tops _ _ LK _ Hl)) as (_ & P2 & P3).
    pose proof (nodup_top F _ (w_tops_nodup _ _ _ W) Hl) as ND. pose proof (NoDup_remove_2 _ _ _ ND) as NT. rewrite in_app_iff in NT.
    rewrite in_app_iff in NE. cbn [In] in NE.
    pose proof (loose_links h F LK e HE) as (LP & LV & LN).
    assert (GC : forall y, In y (concat (map g (tops F))) <-> In y (concat (tops F))).
    { intros y.
      assert (CC : concat (map g (tops F)) = (if after then put_after t e else put_before t e) (without e (concat (tops F)))).
      { rewrite <- concat_without. unfold g, put_after, put_before. destruct after; rewrite <- concat_flat, map_map; reflexivity. }
      rewrite CC.
      assert (IE : In e (concat (tops F))) by (apply in_concat; exists [e]; split; [auto|left; auto]).
      assert (IT : In t (concat (tops F))) by (apply in_concat; eauto).
      destruct after; [rewrite in_put_after|rewrite in_put_before]; rewrite !in_without;
        (split; [intros [[A _]|[-> _]]; auto|]); intros A; (destruct (Nat.eq_dec y e); [right|left]); auto. }
    assert (GD : NoDup (concat (map g (tops F)))).
    { assert (CC : concat (map g (tops F)) = (if after then put_after t e else put_before t e) (without e (concat (tops F)))).
      { rewrite <- concat_without. unfold g, put_after, put_before. destruct after; rewrite <- concat_flat, map_map; reflexivity. }
      rewrite CC. destruct after; [apply NoDup_put_after|apply NoDup_put_before];
        try (apply NoDup_without, (w_tops_nodup _ _ _ W)); rewrite in_without; tauto. }
    assert (GK : forall p, kids (on_lists g F) p = kids F p).
    { intros p. cbn [kids on_lists]. rewrite GN; [apply without_notin, (loose_not_kid h F W); auto|].
      intros A. exact (kid_not_top h F W p t _ A Hl HT). }
    assert (GO : forall l, In l (tops F) -> ~ In e l -> ~ In t l -> g l = l).
    { intros l _ N1 N2. rewrite GN by auto. apply without_notin; auto. }
    assert (GE : g [e] = []).
    { rewrite GN by (cbn; intros [A|[]]; auto). unfold without. cbn. rewrite Nat.eqb_refl. reflexivity. }
    destruct after.
    + subst h'. rewrite Pt, P3. cbv zeta.
      set (h1 := setNext (setNext (setPrev h e (Some t)) e (ohd l2 None)) t (Some e)).
      set (h' := match ohd l2 None with None => h1 | Some nx => setPrev h1 nx (Some e) end).
      assert (SZ : size h' = size h /\ isNode h' = isNode h) by (unfold h'; destruct (ohd l2 None); auto).
      split; [|exact SZ]. destruct SZ as [SZ SN].
      eapply (insert_top_ok h F W LK h' (l1 ++ [t]) e l2 _ g); auto.
      * rewrite <- app_assoc. exact Hl.
      * rewrite <- app_assoc, in_app_iff. cbn [In app]. tauto.
      * assert (HL2 : forall m, ohd l2 None = Some m -> m <> e /\ m <> t).
        { intros m A. apply ohd_in in A. split; intros ->; tauto. }
        constructor; auto; intros x; rewrite ?olast_app; cbn [olast eqId].
        -- unfold h', h1. destruct (ohd l2 None); cbn [parent setPrev setNext]; destruct (x =? e) eqn:EX; auto;
             apply Nat.eqb_eq in EX; subst; auto.
        -- unfold h', h1. destruct (ohd l2 None) as [m|]; cbn [prev setPrev setNext eqId]; unfold upd.
           ++ destruct (HL2 m eq_refl) as [B1 B2]. rewrite (Nat.eqb_sym m x). destruct (x =? m) eqn:EM.
              ** apply Nat.eqb_eq in EM. subst x. rewrite (proj2 (Nat.eqb_neq m e) B1). auto.
              ** destruct (x =? e); auto.
           ++ destruct (x =? e); auto.
        -- rewrite (Nat.eqb_sym t x).
           assert (X : next h' x = if x =? t then Some e else if x =? e then ohd l2 None else next h x).
           { unfold h', h1. destruct (ohd l2 None); reflexivity. }
           rewrite X. destruct (x =? t) eqn:ET, (x =? e) eqn:EX; auto.
           apply Nat.eqb_eq in ET. apply Nat.eqb_eq in EX. congruence.
      * intros p. unfold h', h1. destruct (ohd l2 None); reflexivity.
      * intros p. unfold h', h1. destruct (ohd l2 None); reflexivity.
      * unfold g. rewrite <- !app_assoc. cbn [app]. rewrite without_notin by (rewrite in_app_iff; cbn [In]; tauto).
        rewrite put_after_mid by auto. reflexivity.
      * intros l Hl0 N1 N2. apply GO; auto. intros A. apply (N2 t A). rewrite !in_app_iff. cbn [In]. auto.
    + subst h'. rewrite Pt, P2. cbv zeta.
      set (h1 := setPrev (setNext (setPrev h e (olast l1 None)) e (Some t)) t (Some e)).
      set (h' := match olast l1 None with None => h1 | Some p => setNext h1 p (Some e) end).
      assert (SZ : size h' = size h /\ isNode h' = isNode h) by (unfold h'; destruct (olast l1 None); auto).
      split; [|exact SZ]. destruct SZ as [SZ SN].
      eapply (insert_top_ok h F W LK h' l1 e (t :: l2) _ g); auto.
      * rewrite in_app_iff. cbn [In]. tauto.
      * assert (HL1 : forall m, olast l1 None = Some m -> m <> e /\ m <> t).
        { intros m A. apply olast_in in A. split; intros ->; tauto. }
        constructor; auto; intros x; cbn [ohd eqId].
        -- unfold h', h1. destruct (olast l1 None); cbn [parent setPrev setNext]; destruct (x =? e) eqn:EX; auto;
             apply Nat.eqb_eq in EX; subst; auto.
        -- rewrite (Nat.eqb_sym t x).
           assert (X : prev h' x = if x =? t then Some e else if x =? e then olast l1 None else prev h x).
           { unfold h', h1. destruct (olast l1 None); reflexivity. }
           rewrite X. destruct (x =? t) eqn:ET, (x =? e) eqn:EX; auto.
           apply Nat.eqb_eq in ET. apply Nat.eqb_eq in EX. congruence.
        -- unfold h', h1. destruct (olast l1 None) as [m|]; cbn [next setPrev setNext eqId]; unfold upd.
           ++ destruct (HL1 m eq_refl) as [B1 B2]. rewrite (Nat.eqb_sym m x). destruct (x =? m) eqn:EM.
              ** apply Nat.eqb_eq in EM. subst x. rewrite (proj2 (Nat.eqb_neq m e) B1). auto.
              ** destruct (x =? e); auto.
           ++ destruct (x =? e); auto.
      * intros p. unfold h', h1. destruct (olast l1 None); reflexivity.
      * intros p. unfold h', h1. destruct (olast l1 None); reflexivity.
      * unfold g. rewrite without_notin by (rewrite in_app_iff; cbn [In]; tauto).
        rewrite put_before_mid by auto. reflexivity.
      * intros l Hl0 N1 N2. apply GO; auto. intros A. apply (N2 t A). rewrite !in_app_iff. cbn [In]. auto.
  - (* a child of [pa] *)
    destruct GT as [GT|GT]; [|exfalso; exact (w_top_or_kid _ _ _ W pa t HT GT)].
    destruct (in_split _ _ HT) as (l1 & l2 & E).
    pose proof (l_kids _ _ LK pa) as D. rewrite E in D. pose proof (dseg_at _ _ _ _ _ D) as (P1 & P2 & P3).
    pose proof (w_nodup _ _ _ W pa) as ND. rewrite E in ND.
    destruct (wf_ends _ _ _ _ _ W HT) as (PS & _ & _).
    assert (PN : isNode h pa = true).
    { destruct (isNode h pa) eqn:EN; auto. rewrite (w_token _ _ _ W pa EN) in HT. destruct HT. }
    assert (RP : ~ reach F e pa) by (intros R; apply HR; eapply reach_kid; eauto).
    assert (KG : forall p, kids (on_lists g F) p =
       if p =? pa then (if after then l1 ++ t :: e :: l2 else l1 ++ e :: t :: l2) else kids F p).
    { intros p. cbn [kids on_lists]. destruct (p =? pa) eqn:EP.
      - apply Nat.eqb_eq in EP. subst p. unfold g. rewrite (kids_without_loose h F W) by auto. rewrite E.
        destruct after; [apply put_after_mid|apply put_before_mid]; auto.
      - apply Nat.eqb_neq in EP. rewrite GN; [apply (kids_without_loose h F W); auto|].
        apply (kid_not h F W pa); auto. }
    assert (SZ : size h' = size h /\ isNode h' = isNode h).
    { subst h'. rewrite P1. destruct after; apply addChild_size. }
    split; [|exact SZ]. subst h'. rewrite P1. destruct after.
    + rewrite P3. eapply (child_insert h F pa e (l1 ++ [t]) l2); auto.
      * rewrite <- app_assoc. exact E.
      * intros p. rewrite KG, <- app_assoc. reflexivity.
    + change (Some t) with (ohd (t :: l2) None). eapply (child_insert h F pa e l1 (t :: l2)); auto.
Qed.

Lemma reach_cycle F : well_founded (fun x p => In x (kids F p)) -> forall x y, reach F x y -> In x (kids F y) -> False.
Proof.
  intros WF.
  assert (A : forall x y, reach F x y -> y = x \/ Relation_Operators.clos_trans _ (fun x p => In x (kids F p)) y x).
  { induction 1 as [|y z R [->|IH] K]; [left; auto|right|right].
    - apply Relation_Operators.t_step. auto.
    - eapply Relation_Operators.t_trans; [apply Relation_Operators.t_step; exact K|exact IH]. }
  intros x y R K. pose proof (Transitive_Closure.wf_clos_trans _ _ WF) as WT.
  assert (C : Relation_Operators.clos_trans _ (fun x p => In x (kids F p)) x x).
  { destruct (A x y R) as [->|C]; [apply Relation_Operators.t_step; auto|].
    eapply Relation_Operators.t_trans; [apply Relation_Operators.t_step; exact K|exact C]. }
  specialize (WT x). clear R K. revert C. induction WT as [x _ IH]. intros C. exact (IH x C C).
Qed.

Lemma put_instead_same o l : put_instead o o l = l.
Proof.
  unfold put_instead. rewrite <- (map_id l) at 2. apply map_ext. intros y. destruct (y =? o) eqn:E; auto.
  apply Nat.eqb_eq in E. auto.
Qed.

Lemma replace_ok h F o n : OK h F -> has_parent F o -> movable F n -> (n = o \/ ~ reach F n o) ->
  (forall p l1 l2, kids F p <> l1 ++ o :: n :: l2) ->
  exists h', replace h (Some o) (Some n) = Some h' /\ size h' = size h /\ isNode h' = isNode h /\
    OK h' (if n =? o then F else loose (on_lists (fun l => put_instead o n (without n l)) F) o).
Proof.
  intros HO (pa & HP) HM HR HN. pose proof HO as [W LK].
  destruct (in_split _ _ HP) as (l1 & l2 & E).
  pose proof (l_kids _ _ LK pa) as D. rewrite E in D. pose proof (dseg_at _ _ _ _ _ D) as (P1 & P2 & P3).
  pose proof (w_nodup _ _ _ W pa) as ND. rewrite E in ND. pose proof (NoDup_remove_2 _ _ _ ND) as NO. rewrite in_app_iff in NO.
  destruct (wf_ends _ _ _ _ _ W HP) as (PS & OS & _).
  assert (PN : isNode h pa = true).
  { destruct (isNode h pa) eqn:EN; auto. rewrite (w_token _ _ _ W pa EN) in HP. destruct HP. }
  assert (OT : ~ In o (concat (tops F))) by (apply (w_top_or_kid _ _ _ W pa o HP)).
  unfold replace. rewrite P1, P3.
  destruct (detach_kid h F pa o HO HP) as (HO1 & S1 & N1). set (F1 := loose (on_lists (without o) F) o) in *.
  set (h1 := detach h (Some o)) in *.
  assert (K1 : forall p, kids F1 p = without o (kids F p)) by reflexivity.
  destruct (Nat.eq_dec n o) as [->|NE].
  - rewrite Nat.eqb_refl. rewrite (detach_top h1 F1 o HO1) by (left; auto).
    eexists. split; [reflexivity|]. destruct (addChild_size h1 pa (Some o) (ohd l2 None)) as [A B].
    split; [congruence|]. split; [congruence|].
    eapply (child_insert h1 F1 pa o l1 l2); auto; try congruence.
    + left; auto.
    + intros R. apply (reach_cycle F (w_finite _ _ _ W) o pa); auto. eapply reach_sub; [|exact R].
      intros p z. rewrite K1, in_without. tauto.
    + rewrite K1, E. apply without_mid; auto.
    + intros p. destruct (p =? pa) eqn:EP; [apply Nat.eqb_eq in EP; subst; auto|]. rewrite K1.
      symmetry. apply without_notin. apply (kid_not h F W pa); auto. apply Nat.eqb_neq; auto.
    + unfold F1. cbn [tops loose on_lists map]. unfold without at 1. cbn [filter]. rewrite Nat.eqb_refl. cbn [negb filter nonempty ne].
      rewrite map_map. unfold nonempty. f_equal. rewrite <- (map_id (tops F)) at 1. apply map_ext_in. intros l Hl.
      rewrite without_idem. symmetry. apply without_notin. intros A0. apply OT. apply in_concat; eauto.
  - rewrite (proj2 (Nat.eqb_neq n o) NE).
    destruct HR as [->|HR]; [congruence|].
    assert (HM1 : movable F1 n).
    { destruct HM as [(q & HM)|HM]; [left; exists q; rewrite K1, in_without; auto|right].
      unfold F1. cbn [tops loose on_lists]. right. apply in_map_iff. exists [n]. split; auto.
      apply without_notin. cbn. intros [A|[]]; auto. }
    destruct (detach_movable h1 F1 n HO1 HM1) as (F2 & HO2 & HC & S2 & N2 & K2 & T2 & X2).
    eexists. split; [reflexivity|]. destruct (addChild_size (detach h1 (Some n)) pa (Some n) (ohd l2 None)) as [A B].
    split; [congruence|]. split; [congruence|].
    assert (HD : ohd l2 None = ohd (without n l2) None).
    { destruct l2 as [|b l2]; [reflexivity|]. unfold without. cbn [filter].
      destruct (b =? n) eqn:EB; [|reflexivity]. apply Nat.eqb_eq in EB. subst b. exfalso. apply (HN pa l1 l2). auto. }
    rewrite HD.
    eapply (child_insert _ F2 pa n (without n l1) (without n l2)); auto; try congruence.
    + intros R. apply HR. eapply reach_kid; [|exact HP]. eapply reach_sub; [|exact R].
      intros p z. rewrite K2, K1, !in_without. tauto.
    + rewrite K2, K1, E, without_mid by auto. apply without_app.
    + intros p. cbn [kids loose on_lists]. destruct (p =? pa) eqn:EP.
      * apply Nat.eqb_eq in EP. subst p. rewrite E, without_app. unfold without at 2. cbn [filter].
        rewrite (proj2 (Nat.eqb_neq o n)) by auto. cbn [negb]. fold (without n l2).
        apply put_instead_mid.
        apply (NoDup_without n) in ND. rewrite without_app in ND. unfold without at 2 in ND. cbn [filter] in ND.
        rewrite (proj2 (Nat.eqb_neq o n)) in ND by auto. exact ND.
      * apply Nat.eqb_neq in EP.
        assert (~ In o (kids F p)) by (apply (kid_not h F W pa); auto).
        rewrite K2, K1, (without_notin o) by auto. apply put_instead_notin. rewrite in_without. tauto.
    + rewrite T2. unfold F1. cbn [tops loose on_lists map].
      rewrite (without_notin n [o]) by (cbn; intros [A0|[]]; auto). unfold nonempty. cbn [filter ne]. f_equal.
      rewrite map_map. f_equal. apply map_ext_in. intros l Hl.
      assert (~ In o l) by (intros A0; apply OT, in_concat; eauto).
      rewrite (without_notin o) by auto. apply put_instead_notin. rewrite in_without. tauto.
Qed.

Lemma has_parent_dec h F x : OK h F -> x < size h -> In x (concat (tops F)) \/ exists p, In x (kids F p).
Proof. intros [W _] H. apply (w_exists _ _ _ W) in H. exact H. Qed.

Lemma new_ok h F b : OK h F -> OK (fst (newElement h b)) (loose F (size h)).
Proof.
  intros [W LK]. set (x := size h).
  assert (NX : ~ In x (concat (tops F)) /\ forall p, ~ In x (kids F p)).
  { split; [intros A|intros p A].
    - assert (x < size h) by (apply (w_exists _ _ _ W); left; auto). unfold x in *; lia.
    - assert (x < size h) by (apply (w_exists _ _ _ W); right; exists p; auto). unfold x in *; lia. }
  destruct NX as [NT NK].
  assert (SAME : forall y, y <> x -> parent (fst (newElement h b)) y = parent h y /\ prev (fst (newElement h b)) y = prev h y
    /\ next (fst (newElement h b)) y = next h y).
  { intros y Hy. cbn [newElement fst parent prev next]. fold x. rewrite !upd_neq by auto. auto. }
  split.
  - change (size (fst (newElement h b))) with (S x). constructor; cbn [kids tops loose].
    + intros p Hp. cbn [newElement fst isNode] in Hp. fold x in Hp. destruct (Nat.eq_dec p x) as [->|N].
      * apply (w_fresh _ _ _ W). unfold x. lia.
      * rewrite upd_neq in Hp by auto. apply (w_token _ _ _ W p Hp).
    + intros y. cbn [concat app In]. unfold has_parent. cbn [kids loose].
      pose proof (w_exists _ _ _ W y) as E. unfold has_parent in E. fold x in E.
      split.
      * intros A. destruct (Nat.eq_dec y x) as [->|N]; [left; left; auto|].
        assert (y < x) by lia. apply E in H. tauto.
      * intros [[<-|A]|A]; [lia| |]; assert (y < x) by (apply E; tauto); lia.
    + intros p Hp. apply (w_fresh _ _ _ W). fold x. lia.
    + apply (w_nodup _ _ _ W).
    + apply (w_one_parent _ _ _ W).
    + cbn [concat app]. constructor; auto. apply (w_tops_nodup _ _ _ W).
    + intros p y A [<-|B]; [exact (NK p A)|]. exact (w_top_or_kid _ _ _ W p y A B).
    + apply (w_finite _ _ _ W).
  - constructor; cbn [kids tops loose].
    + intros p. eapply dseg_same; [apply (l_kids _ _ LK p)|]. intros y Hy. apply SAME. intros ->. exact (NK p Hy).
    + intros l [<-|Hl].
      * cbn [dseg ohd newElement fst parent prev next]. fold x. rewrite !upd_eq. auto.
      * eapply dseg_same; [apply (l_tops _ _ LK l Hl)|]. intros y Hy. apply SAME. intros ->.
        apply NT, in_concat; eauto.
    + intros p Hp. cbn [newElement fst size] in Hp. fold x in Hp. cbn [newElement fst firstChild lastChild]. fold x.
      destruct (Nat.eq_dec p x) as [->|N].
      * rewrite !upd_eq. rewrite (w_fresh _ _ _ W x) by (unfold x; lia). auto.
      * rewrite !upd_neq by auto. apply (l_ends _ _ LK p). fold x. lia.
Qed.

(** One edit. *)
Lemma edit_ok h F e : OK h F -> allowed (isNode h) (size h) F e ->
  exists h', h_edit h e = Some h' /\ OK h' (f_edit (size h) F e) /\ size h' = size h + news e /\
    (forall x, isNode h' x = nodes_after (size h) (isNode h) e x).
Proof.
  intros HO HA. pose proof HO as [W LK].
  assert (SAME : OK h F /\ size h = size h + 0 /\ forall x, isNode h x = isNode h x) by (rewrite Nat.add_0_r; auto).
  assert (DET : forall c, exists_ (size h) (Some c) ->
     OK (detach h (Some c)) (if member c (concat (tops F)) then F else loose (on_lists (without c) F) c) /\
     size (detach h (Some c)) = size h + 0 /\ forall x, isNode (detach h (Some c)) x = isNode h x).
  { intros c HC. cbn in HC. destruct (member c (concat (tops F))) eqn:E.
    - apply member_spec in E. rewrite (detach_top h F c HO E). auto.
    - apply member_false in E. destruct (has_parent_dec h F c HO HC) as [A|(p & A)]; [contradiction|].
      destruct (detach_kid h F p c HO A) as (A1 & A2 & A3). rewrite Nat.add_0_r, A3. auto. }
  destruct e as [b|n c b|n c|c|o n|t e|t e|n c]; cbn [h_edit f_edit news nodes_after allowed] in *.
  - exists (fst (newElement h b)). split; auto. split; [apply new_ok; auto|]. split; [cbn; lia|reflexivity].
  - destruct HA as (HN & HNo & HC & HB & HX). eexists. split; [reflexivity|].
    destruct c as [c|]; [|destruct b; exact SAME]. destruct (HX c eq_refl) as [H1 H2].
    destruct (addChild_size h n (Some c) b) as [S1 S2].
    destruct b as [b|].
    + destruct (member b (kids F n)) eqn:EM.
      * apply member_spec in EM. pose proof (add_before_ok h F W LK n b c H1 HN HNo H2 EM) as A.
        split; [exact A|]. rewrite S1, S2. auto.
      * apply member_false in EM. cbn [addChild].
        assert (EP : eqId (parent h b) (Some n) = false).
        { apply not_true_iff_false. rewrite eqId_true. intros A. apply EM. apply (parent_inv h F W LK); auto. }
        rewrite EP. exact SAME.
    + pose proof (add_last_ok h F W LK n c H1 HN HNo H2) as A. split; [exact A|]. rewrite S1, S2. auto.
  - destruct HA as (HN & HNo & HC). eexists. split; [reflexivity|]. destruct c as [c|]; [|exact SAME].
    destruct (member c (kids F n)) eqn:EM.
    + apply member_spec in EM. destruct (remove_ok h F W LK n c EM) as (A & B & C).
      split; [split; [rewrite B, C; eapply wf_loosen; eauto|exact A]|]. rewrite B, C. auto.
    + apply member_false in EM. unfold removeChild.
      assert (EP : eqId (parent h c) (Some n) = false).
      { apply not_true_iff_false. rewrite eqId_true. intros A. apply EM. apply (parent_inv h F W LK); auto. }
      rewrite EP. exact SAME.
  - eexists. split; [reflexivity|]. destruct c as [c|]; [apply DET; auto|exact SAME].
  - destruct HA as (H1 & H2 & HX). destruct o as [o|], n as [n|]; cbn [replace].
    + destruct (HX o n eq_refl eq_refl) as (A1 & A2 & A3 & A4).
      destruct (replace_ok h F o n HO A1 A2 A3 A4) as (h' & E & S1 & S2 & A). exists h'.
      split; [exact E|]. split; [exact A|]. rewrite S1, S2. auto.
    + eexists. split; [reflexivity|]. apply DET; auto.
    + eexists. split; [reflexivity|]. exact SAME.
    + eexists. split; [reflexivity|]. exact SAME.
  - destruct HA as (H1 & H2 & HX). eexists. split; [reflexivity|].
    destruct t as [t|], e as [e|]; cbn [appendSibling]; try exact SAME.
    destruct (HX t e eq_refl eq_refl) as (A1 & A2).
    destruct (detach_movable h F e HO A1) as (F' & HO' & HC & S1 & S2 & K & T & X).
    assert (R' : ~ reach F' e t).
    { intros R. apply A2. eapply reach_sub; [|exact R]. intros p z. rewrite K, in_without. tauto. }
    cbn in H1. pose proof (place_ok (detach h (Some e)) F' t e true HO' HC ltac:(lia) R') as (B1 & B2 & B3).
    cbv zeta in B1, B2, B3. cbv zeta. split; [|split].
    + eapply OK_feq; [exact B1| |].
      * intros p. cbn [kids on_lists]. rewrite K, without_idem. reflexivity.
      * cbn [tops on_lists].
        (* both are the same function of the lists without [e] *)
        assert (C : forall ls, nonempty (map (fun l => put_after t e (without e l)) ls) = map (put_after t e) (nonempty (map (without e) ls))).
        { induction ls as [|l ls IH]; auto. unfold nonempty in *. cbn [map filter]. rewrite IH.
          destruct (without e l) as [|y l']; [reflexivity|]. cbn [ne map].
          replace (ne (put_after t e (y :: l'))) with true; [reflexivity|].
          unfold put_after. cbn [flat_map]. destruct (y =? t); reflexivity. }
        rewrite !C, T. reflexivity.
    + etransitivity; [exact B2|]. lia.
    + intros x. etransitivity; [exact (f_equal (fun f => f x) B3)|]. rewrite S2. reflexivity.
  - destruct HA as (H1 & H2 & HX). eexists. split; [reflexivity|].
    destruct t as [t|], e as [e|]; cbn [prependSibling]; try exact SAME.
    destruct (HX t e eq_refl eq_refl) as (A1 & A2).
    destruct (detach_movable h F e HO A1) as (F' & HO' & HC & S1 & S2 & K & T & X).
    assert (R' : ~ reach F' e t).
    { intros R. apply A2. eapply reach_sub; [|exact R]. intros p z. rewrite K, in_without. tauto. }
    cbn in H1. pose proof (place_ok (detach h (Some e)) F' t e false HO' HC ltac:(lia) R') as (B1 & B2 & B3).
    cbv zeta in B1, B2, B3. cbv zeta. split; [|split].
    + eapply OK_feq; [exact B1| |].
      * intros p. cbn [kids on_lists]. rewrite K, without_idem. reflexivity.
      * cbn [tops on_lists].
        assert (C : forall ls, nonempty (map (fun l => put_before t e (without e l)) ls) = map (put_before t e) (nonempty (map (without e) ls))).
        { induction ls as [|l ls IH]; auto. unfold nonempty in *. cbn [map filter]. rewrite IH.
          destruct (without e l) as [|y l']; [reflexivity|]. cbn [ne map].
          replace (ne (put_before t e (y :: l'))) with true; [reflexivity|].
          unfold put_before. cbn [flat_map]. destruct (y =? t); reflexivity. }
        rewrite !C, T. reflexivity.
    + etransitivity; [exact B2|]. lia.
    + intros x. etransitivity; [exact (f_equal (fun f => f x) B3)|]. rewrite S2. reflexivity.
  - destruct HA as (H1 & H2 & H3 & HX). eexists. split; [reflexivity|].
    destruct n as [n|], c as [c|]; try exact SAME.
    destruct (HX n c eq_refl eq_refl) as (A1 & A2).
    destruct (append_child_ok h F n c HO A1 H1 (H3 n eq_refl) A2) as (B1 & B2 & B3).
    split; [exact B1|]. split; [etransitivity; [exact B2|]; lia|].
    intros x. exact (f_equal (fun f => f x) B3).
Qed.
