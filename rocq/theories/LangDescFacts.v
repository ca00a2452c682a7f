(** Facts about the functions of LangDescSpec.v: what one more record or argument adds. *)
From Coq Require Import ZArith List Bool Lia.
From Verif Require Import Base BaseProofs Grammar LangBuild LangTypes LangText LangTextTotal LangDescSpec.
Import ListNotations.
Open Scope Z_scope.

Lemma nameEqb_refl n : nameEqb n n = true. Proof. apply nameEqb_ok. reflexivity. Qed.
Lemma nameEqb_sym a b : nameEqb a b = nameEqb b a.
Proof. destruct (nameEqb a b) eqn:E; symmetry; [apply nameEqb_ok in E; subst; apply nameEqb_refl|apply nameEqb_not in E; apply nameEqb_not; congruence]. Qed.
Lemma mem_In n l : mem n l = true <-> In n l.
Proof. unfold mem. rewrite existsb_exists. split; [intros (x & I & E); apply nameEqb_ok in E; subst; exact I|intros I; exists n; split; [exact I|apply nameEqb_refl]]. Qed.
Lemma mem_not n l : mem n l = false <-> ~ In n l.
Proof. rewrite <- mem_In. destruct (mem n l); split; congruence. Qed.
Lemma mem_app n a b : mem n (a ++ b) = mem n a || mem n b. Proof. apply existsb_app. Qed.
Lemma mem_one n x : mem n [x] = nameEqb n x. Proof. cbn. apply orb_false_r. Qed.
Lemma In_dec_name (n : name) l : In n l \/ ~ In n l.
Proof. destruct (mem n l) eqn:E; [left; apply mem_In, E|right; apply mem_not, E]. Qed.
Lemma mem_ext n a b : (In n a <-> In n b) -> mem n a = mem n b.
Proof. intros H. destruct (mem n a) eqn:E; symmetry; [apply mem_In, H, mem_In, E|apply mem_not; intros X; apply mem_not in E; tauto]. Qed.

(** ** First occurrences *)
Lemma firsts_In n l : In n (firsts l) <-> In n l.
Proof.
  induction l as [|x l IH]; cbn; [tauto|]. rewrite filter_In, IH. destruct (nameEqb x n) eqn:E; cbn; [apply nameEqb_ok in E; subst; tauto|apply nameEqb_not in E; intuition congruence].
Qed.
Lemma mem_firsts n l : mem n (firsts l) = mem n l. Proof. apply mem_ext, firsts_In. Qed.
Lemma filter_NoDup {A} (f : A -> bool) l : NoDup l -> NoDup (filter f l).
Proof. induction 1 as [|x l N H IH]; cbn; [constructor|]. destruct (f x); [|exact IH]. constructor; [|exact IH]. rewrite filter_In. tauto. Qed.
Lemma firsts_NoDup l : NoDup (firsts l).
Proof. induction l as [|x l IH]; cbn; constructor; [|apply filter_NoDup, IH]. rewrite filter_In, nameEqb_refl. intros (_ & H). discriminate. Qed.
Lemma filter_none {A} (f : A -> bool) l : (forall x, In x l -> f x = true) -> filter f l = l.
Proof. induction l as [|x l IH]; cbn; intros H; [reflexivity|]. rewrite (H x), IH; auto. Qed.
Lemma firsts_id l : NoDup l -> firsts l = l.
Proof. induction 1 as [|x l N H IH]; cbn; [reflexivity|]. rewrite IH, filter_none; [reflexivity|]. intros y I. destruct (nameEqb x y) eqn:E; [|reflexivity]. apply nameEqb_ok in E. congruence. Qed.
Lemma firsts_snoc l x : firsts (l ++ [x]) = if mem x l then firsts l else firsts l ++ [x].
Proof.
  induction l as [|y l IH]; cbn [firsts app]; [reflexivity|]. rewrite IH. change (mem x (y :: l)) with (nameEqb x y || mem x l). destruct (nameEqb x y) eqn:E; cbn [orb].
  - apply nameEqb_ok in E. subst y. destruct (mem x l); [reflexivity|]. rewrite filter_app. cbn. rewrite nameEqb_refl. cbn. rewrite app_nil_r. reflexivity.
  - destruct (mem x l); [reflexivity|]. rewrite filter_app. cbn. rewrite nameEqb_sym, E. reflexivity.
Qed.
Lemma firsts_app a b : exists d, firsts (a ++ b) = firsts a ++ d.
Proof.
  revert a. induction b as [|x b IH] using rev_ind; intros a; [exists []; rewrite !app_nil_r; reflexivity|]. rewrite app_assoc, firsts_snoc. destruct (IH a) as (d & ->). destruct (mem x (a ++ b)); [eauto|]. exists (d ++ [x]). rewrite app_assoc. reflexivity.
Qed.
(** ** Positions *)
Lemma position_range n l : In n l -> 0 <= position n l < zlen l.
Proof.
  induction l as [|x l IH]; [intros []|]. intros I. unfold zlen in *. cbn [position length]. destruct (nameEqb n x) eqn:E; [lia|]. destruct I as [->|I]; [rewrite nameEqb_refl in E; discriminate|]. specialize (IH I). lia.
Qed.
Lemma position_get n l : In n l -> zget l (position n l) = Some n.
Proof.
  intros I. pose proof (position_range _ _ I) as R. rewrite zget_nth by lia. clear R. induction l as [|x l IH]; [destruct I|]. cbn [position]. destruct (nameEqb n x) eqn:E; [apply nameEqb_ok in E; subst; reflexivity|]. destruct I as [->|I]; [rewrite nameEqb_refl in E; discriminate|].
  pose proof (position_range _ _ I) as R. replace (Z.to_nat (1 + position n l)) with (S (Z.to_nat (position n l))) by lia. cbn. apply IH, I.
Qed.
Lemma position_app n a b : In n a -> position n (a ++ b) = position n a.
Proof. induction a as [|x a IH]; [intros []|]. intros I. cbn. destruct (nameEqb n x) eqn:E; [reflexivity|]. destruct I as [->|I]; [rewrite nameEqb_refl in E; discriminate|]. rewrite IH by exact I. reflexivity. Qed.
Lemma position_after n a b : ~ In n a -> position n (a ++ b) = zlen a + position n b.
Proof. unfold zlen. induction a as [|x a IH]; intros N; cbn [app length]; [cbn; lia|]. cbn [position]. destruct (nameEqb n x) eqn:E; [apply nameEqb_ok in E; subst; exfalso; apply N; left; reflexivity|]. rewrite IH by (intros I; apply N; right; exact I). lia. Qed.
Lemma position_new n a : ~ In n a -> position n (a ++ [n]) = zlen a.
Proof. intros N. rewrite position_after by exact N. cbn. rewrite nameEqb_refl. lia. Qed.
Lemma position_firsts n a b : In n a -> position n (firsts (a ++ b)) = position n (firsts a).
Proof. intros I. destruct (firsts_app a b) as (d & ->). apply position_app, firsts_In, I. Qed.
(** an entry found by its name and changed *)
Section Keys.
Context {X : Type} (key : X -> name).
Lemma key_get l n : In n (map key l) -> exists x, zget l (position n (map key l)) = Some x /\ key x = n /\ In x l.
Proof.
  intros I. pose proof (position_get _ _ I) as G. pose proof (position_range _ _ I) as R. unfold zlen in R. rewrite map_length in R. rewrite zget_nth in G by lia. rewrite nth_error_map in G. rewrite zget_nth by lia. destruct (nth_error l _) as [x|] eqn:E; [|discriminate]. injection G as G. exists x. split; [reflexivity|]. split; [exact G|]. eapply nth_error_In, E.
Qed.
Lemma key_upd g l n x : NoDup (map key l) -> zget l (position n (map key l)) = Some x -> In n (map key l) -> upd l (Z.to_nat (position n (map key l))) (g x) = map (fun y => if nameEqb (key y) n then g y else y) l.
Proof.
  intros ND G I. pose proof (position_range _ _ I) as R. rewrite zget_nth in G by lia. clear R. revert x G. induction l as [|y l IH]; intros x G; [destruct I|]. cbn [map position] in *. inversion ND as [|? ? N ND']; subst. rewrite (nameEqb_sym n) in *. destruct (nameEqb (key y) n) eqn:E.
  - cbn in G. injection G as ->. cbn. f_equal. apply nameEqb_ok in E. subst n. symmetry. rewrite <- (map_id l) at 2. apply map_ext_in. intros z Z. destruct (nameEqb (key z) (key x)) eqn:E; [|reflexivity]. apply nameEqb_ok in E. exfalso. apply N. rewrite <- E. apply in_map, Z.
  - destruct I as [I|I]; [apply nameEqb_not in E; contradiction|]. pose proof (position_range _ _ I) as R. replace (Z.to_nat (1 + position n (map key l))) with (S (Z.to_nat (position n (map key l)))) in * by lia. cbn in *. f_equal. apply IH; assumption.
Qed.
End Keys.
Lemma nget_ndel {V} n k (m : list (name * V)) : nget n (ndel k m) = if nameEqb n k then None else nget n m.
Proof.
  unfold ndel. induction m as [|(x, y) m IH]; cbn; [destruct (nameEqb n k); reflexivity|]. destruct (nameEqb k x) eqn:E; cbn.
  - rewrite IH. apply nameEqb_ok in E. subst x. destruct (nameEqb n k); reflexivity.
  - rewrite IH. destruct (nameEqb n x) eqn:E2; [|reflexivity]. apply nameEqb_ok in E2. subst x. rewrite (nameEqb_sym n k), E. reflexivity.
Qed.

(** ** What one more record or argument adds *)
Lemma flat_app {A B} (f : A -> list B) a b : flat f (a ++ b) = flat f a ++ flat f b.
Proof. unfold flat. rewrite map_app, concat_app. reflexivity. Qed.
Lemma flat_one {A B} (f : A -> list B) a : flat f [a] = f a.
Proof. unfold flat. cbn. apply app_nil_r. Qed.
Lemma flat_cons {A B} (f : A -> list B) a l : flat f (a :: l) = f a ++ flat f l. Proof. reflexivity. Qed.
Lemma flat_In {A B} (f : A -> list B) l y : In y (flat f l) <-> exists x, In x l /\ In y (f x).
Proof. unfold flat. rewrite in_concat. setoid_rewrite in_map_iff. split; [intros (z & (x & <- & I) & J); eauto|intros (x & I & J); exists (f x); eauto]. Qed.
Definition argType (a : arg) : list name := match a with AType n => [n] | _ => [] end.
Definition argString (a : arg) : list name := match a with AString n => [n] | _ => [] end.
Lemma typesIn_app P a b : typesIn P (a ++ b) = typesIn P a ++ typesIn P b. Proof. apply flat_app. Qed.
Lemma stringsIn_app P a b : stringsIn P (a ++ b) = stringsIn P a ++ stringsIn P b. Proof. apply flat_app. Qed.
Lemma defined_app a b : defined (a ++ b) = defined a ++ defined b. Proof. apply flat_app. Qed.
Lemma layersOf_app a b : layersOf (a ++ b) = layersOf a ++ layersOf b. Proof. apply flat_app. Qed.
Lemma typesIn_dir P d args : typesIn P [RDirective d args] = if P d then flat argType args else [].
Proof. unfold typesIn. rewrite flat_one. reflexivity. Qed.
Lemma stringsIn_dir P d args : stringsIn P [RDirective d args] = if P d then flat argString args else [].
Proof. unfold stringsIn. rewrite flat_one. reflexivity. Qed.
Definition plus (rs : list record) (d : directive) (args : list arg) := rs ++ [RDirective d args].
Lemma typesIn_arg P rs d args a : typesIn P (plus rs d (args ++ [a])) = typesIn P (plus rs d args) ++ (if P d then argType a else []).
Proof. unfold plus. rewrite !typesIn_app, !typesIn_dir, <- app_assoc. f_equal. destruct (P d); [rewrite flat_app, flat_one|]; reflexivity. Qed.
Lemma stringsIn_arg P rs d args a : stringsIn P (plus rs d (args ++ [a])) = stringsIn P (plus rs d args) ++ (if P d then argString a else []).
Proof. unfold plus. rewrite !stringsIn_app, !stringsIn_dir, <- app_assoc. f_equal. destruct (P d); [rewrite flat_app, flat_one|]; reflexivity. Qed.
Lemma typesIn_start P rs d : typesIn P (plus rs d []) = typesIn P rs.
Proof. unfold plus. rewrite typesIn_app, typesIn_dir. destruct (P d); apply app_nil_r. Qed.
Lemma stringsIn_start P rs d : stringsIn P (plus rs d []) = stringsIn P rs.
Proof. unfold plus. rewrite stringsIn_app, stringsIn_dir. destruct (P d); apply app_nil_r. Qed.
Lemma defined_plus rs d args : defined (plus rs d args) = defined rs.
Proof. unfold plus. rewrite defined_app. apply app_nil_r. Qed.
Lemma layersOf_plus rs d args : layersOf (plus rs d args) = layersOf rs.
Proof. unfold plus. rewrite layersOf_app. apply app_nil_r. Qed.
(** early mentions *)
Definition notIn (known : list name) : name -> bool := fun n => negb (mem n known).
Lemma early_app : forall a k b, early k (a ++ b) = early k a ++ early (rev (defined a) ++ k) b.
Proof.
  induction a as [|r a IH]; intros k b; cbn [app]; [reflexivity|]. destruct r; cbn [early]; rewrite ?IH, <- ?app_assoc; try reflexivity.
  change (defined (RType n ps :: a)) with (n :: defined a). cbn [rev]. rewrite <- app_assoc. reflexivity.
Qed.
Lemma early_known k k' rs : (forall n, In n k <-> In n k') -> early k rs = early k' rs.
Proof.
  revert k k'. induction rs as [|r rs IH]; intros k k' H; [reflexivity|]. assert (E : forall l, filter (fun n => negb (mem n k)) l = filter (fun n => negb (mem n k')) l). { intros l. apply filter_ext. intros n. rewrite (mem_ext n k k'); [reflexivity|apply H]. }
  destruct r; cbn [early]; rewrite ?E, ?(IH k k' H); try reflexivity. apply IH. intros x. cbn. rewrite H. tauto.
Qed.
Lemma early_snoc rs r : early [] (rs ++ [r]) = early [] rs ++ early (defined rs) [r].
Proof. rewrite early_app. f_equal. apply early_known. intros n. rewrite app_nil_r, <- in_rev. tauto. Qed.
Lemma early_plus rs d args : early [] (plus rs d args) = early [] rs ++ filter (notIn (defined rs)) (flat argType args).
Proof. unfold plus. rewrite early_snoc. f_equal. cbn [early]. rewrite app_nil_r, typesIn_dir. reflexivity. Qed.
Lemma early_arg rs d args a : early [] (plus rs d (args ++ [a])) = early [] (plus rs d args) ++ filter (notIn (defined rs)) (argType a).
Proof. rewrite !early_plus, flat_app, flat_one, filter_app, app_assoc. reflexivity. Qed.
Lemma early_in n : forall rs k, ~ In n k -> ~ In n (defined rs) -> (In n (early k rs) <-> In n (typesIn any rs)).
Proof.
  induction rs as [|r rs IH]; intros k N D; [reflexivity|]. change (r :: rs) with ([r] ++ rs) in *. rewrite typesIn_app, defined_app in *. rewrite early_app. rewrite in_app_iff in *. rewrite in_app_iff, IH; [|rewrite in_app_iff, <- in_rev; tauto|tauto].
  assert (E : In n (early k [r]) <-> In n (typesIn any [r])); [|tauto]. destruct r; cbn [early]; rewrite ?app_nil_r; try reflexivity. rewrite filter_In. rewrite (proj2 (mem_not n k)) by exact N. cbn. tauto.
Qed.
(** groups *)
Fixpoint groups (rs : list record) : Z := match rs with [] => 0 | RDirective DGroup _ :: r => 1 + groups r | _ :: r => groups r end.
Lemma groups_app a b : groups (a ++ b) = groups a + groups b.
Proof. induction a as [|r a IH]; [reflexivity|]. cbn [app groups]. destruct r as [d l| | | |]; try exact IH. destruct d; try exact IH. rewrite IH. lia. Qed.
Lemma groups_pos rs : 0 <= groups rs.
Proof. induction rs as [|r a IH]; [cbn; lia|]. destruct r as [d l| | | |]; try exact IH. destruct d; try exact IH. cbn [groups]. lia. Qed.
Lemma groupOf_app n : forall a k b, groupOf k n (a ++ b) = if mem n (typesIn (dirEqb DGroup) a) then groupOf k n a else groupOf (k + groups a) n b.
Proof.
  induction a as [|r a IH]; intros k b; cbn [app]; [cbn; rewrite Z.add_0_r; reflexivity|]. replace (typesIn (dirEqb DGroup) (r :: a)) with (typesIn (dirEqb DGroup) [r] ++ typesIn (dirEqb DGroup) a) by (rewrite <- typesIn_app; reflexivity). rewrite mem_app. cbn [groupOf groups]. destruct r as [d l| | | |]; try apply IH.
  rewrite !typesIn_dir. destruct d; cbn [dirEqb any]; try apply IH. destruct (mem n (flat argType l)); [reflexivity|]. cbn [orb]. rewrite IH. replace (k + 1 + groups a) with (k + (1 + groups a)) by lia. reflexivity.
Qed.
Lemma groupOf_none n rs k : ~ In n (typesIn (dirEqb DGroup) rs) -> groupOf k n rs = 0.
Proof. intros N. rewrite <- (app_nil_r rs), groupOf_app, (proj2 (mem_not _ _) N). reflexivity. Qed.
Lemma groupOf_plus n rs d args : d <> DGroup -> groupOf 1 n (plus rs d args) = groupOf 1 n rs.
Proof.
  intros D. unfold plus. rewrite groupOf_app. destruct (mem n (typesIn (dirEqb DGroup) rs)) eqn:E; [reflexivity|]. rewrite (groupOf_none n rs) by (apply mem_not, E). apply groupOf_none. rewrite typesIn_dir. destruct d; try congruence; cbn; tauto.
Qed.
Lemma groupOf_group n rs args : groupOf 1 n (plus rs DGroup args) = if mem n (typesIn (dirEqb DGroup) rs) then groupOf 1 n rs else if mem n (flat argType args) then 1 + groups rs else 0.
Proof. unfold plus. rewrite groupOf_app. destruct (mem _ _); [reflexivity|]. cbn [groupOf]. rewrite typesIn_dir. cbn [any]. destruct (mem _ _); reflexivity. Qed.
(** any order *)
Lemma lastGroup_app n : forall a k g b, lastGroup k g n (a ++ b) = lastGroup (k + groups a) (lastGroup k g n a) n b.
Proof.
  induction a as [|r a IH]; intros k g b; cbn [app]; [cbn; rewrite Z.add_0_r; reflexivity|]. cbn [lastGroup groups]. destruct r as [d l| | | |]; try apply IH. destruct d; try apply IH. rewrite IH. f_equal. lia.
Qed.
Lemma lastGroup_none n rs : forall k g, ~ In n (typesIn (dirEqb DGroup) rs) -> lastGroup k g n rs = g.
Proof.
  induction rs as [|r rs IH]; intros k g N; [reflexivity|]. change (r :: rs) with ([r] ++ rs) in N. rewrite typesIn_app, in_app_iff in N. cbn [lastGroup]. destruct r as [d l| | | |]; try (apply IH; tauto). rewrite typesIn_dir in N. destruct d; try (apply IH; tauto). rewrite IH by tauto. rewrite typesIn_dir. cbn [any dirEqb] in *. rewrite (proj2 (mem_not _ _)); [reflexivity|tauto].
Qed.
Lemma groupNow_none n rs : ~ In n (typesIn (dirEqb DGroup) rs) -> groupNow n rs = 0.
Proof. apply lastGroup_none. Qed.
Lemma groupNow_plus n rs d args : d <> DGroup -> groupNow n (plus rs d args) = groupNow n rs.
Proof. intros D. unfold groupNow, plus. rewrite lastGroup_app. apply lastGroup_none. rewrite typesIn_dir. destruct d; try congruence; cbn; tauto. Qed.
Lemma groupNow_group n rs args : groupNow n (plus rs DGroup args) = if mem n (flat argType args) then 1 + groups rs else groupNow n rs.
Proof. unfold groupNow, plus. rewrite lastGroup_app. cbn [lastGroup]. rewrite typesIn_dir. cbn [any]. reflexivity. Qed.
Lemma lastGroup_pos n rs : forall k g, 0 < k -> 0 < g \/ In n (typesIn (dirEqb DGroup) rs) -> 0 < lastGroup k g n rs.
Proof.
  induction rs as [|r rs IH]; intros k g K G; [destruct G as [G|[]]; exact G|]. change (r :: rs) with ([r] ++ rs) in G. rewrite typesIn_app, in_app_iff in G. cbn [lastGroup].
  destruct r as [d l| | | |]; try (apply IH; [exact K|]; destruct G as [G|[[]|G]]; auto). rewrite typesIn_dir in G. destruct d; try (apply IH; [exact K|]; cbn [dirEqb] in G; destruct G as [G|[[]|G]]; auto). rewrite typesIn_dir. cbn [any dirEqb] in *. apply IH; [lia|]. destruct (mem n (flat argType l)) eqn:M; [left; exact K|]. apply mem_not in M. tauto.
Qed.
Lemma groupNow_pos n rs : In n (typesIn (dirEqb DGroup) rs) -> 0 < groupNow n rs.
Proof. intros I. apply lastGroup_pos; [lia|auto]. Qed.
Lemma groupNow_apart n rs : groupsApart rs -> groupNow n rs = groupOf 1 n rs.
Proof.
  unfold groupsApart, groupNow. generalize 1 as k. induction rs as [|r rs IH]; intros k ND; [reflexivity|]. change (r :: rs) with ([r] ++ rs) in ND. rewrite typesIn_app in ND. cbn [lastGroup groupOf]. destruct r as [d l| | | |]; try exact (IH k ND). destruct d; try exact (IH k ND). rewrite !typesIn_dir in *. cbn [any dirEqb] in *. destruct (mem n (flat argType l)) eqn:M.
  - apply lastGroup_none. intros I. apply mem_In in M. clear - ND M I. apply in_split in M. destruct M as (p & q & M). rewrite M, <- app_assoc in ND. cbn [app] in ND. apply NoDup_remove_2 in ND. apply ND, in_or_app. right. apply in_or_app. right. exact I.
  - apply IH. clear - ND. induction (flat argType l) as [|x y IH]; [exact ND|]. inversion ND; subst. auto.
Qed.
Lemma reservedNow_app s a b : reservedNow s (a ++ b) = if mem s (stringsIn any a) then reservedNow s a else reservedNow s b.
Proof.
  induction a as [|r a IH]; [reflexivity|]. cbn [app reservedNow]. change (r :: a) with ([r] ++ a). rewrite stringsIn_app, mem_app. destruct r as [d l| | | |]; try exact IH. destruct (mem s (stringsIn any [RDirective d l])); [reflexivity|exact IH].
Qed.
Lemma reservedNow_none s a : mem s (stringsIn any a) = false -> reservedNow s a = false.
Proof. intros M. rewrite <- (app_nil_r a), reservedNow_app, M. reflexivity. Qed.
Lemma reservedNow_plus s rs d args : reservedNow s (plus rs d args) = if mem s (stringsIn any rs) then reservedNow s rs else mem s (flat argString args) && dirEqb DReserved d.
Proof. unfold plus. rewrite reservedNow_app. destruct (mem s (stringsIn any rs)); [reflexivity|]. cbn [reservedNow]. rewrite stringsIn_dir. cbn [any]. destruct (mem s _); reflexivity. Qed.
Lemma reservedNow_arg x rs d args a : reservedNow x (plus rs d (args ++ [a])) = if mem x (stringsIn any (plus rs d args)) then reservedNow x (plus rs d args) else mem x (argString a) && dirEqb DReserved d.
Proof.
  rewrite !reservedNow_plus. unfold plus. rewrite stringsIn_app, stringsIn_dir, flat_app, flat_one, !mem_app. cbn [any]. destruct (mem x (stringsIn any rs)); [reflexivity|]. cbn [orb]. destruct (mem x (flat argString args)); reflexivity.
Qed.
(** groups that are kept *)
Definition keptBy (rs : list record) (r : record) : Prop :=
  forall p n q, r = RDirective DGroup (p ++ AType n :: q) -> In n (defined rs) -> ~ In n (typesIn (dirEqb DGroup) rs) /\ ~ In (AType n) p.
Lemma kept_snoc rs r : groupsKept (rs ++ [r]) <-> groupsKept rs /\ keptBy rs r.
Proof.
  split.
  - intros K. split; [|intros p n q ->; apply (K rs p n q []); reflexivity]. intros a p n q b ->. apply (K a p n q (b ++ [r])). rewrite <- app_assoc. reflexivity.
  - intros (K & B) a p n q b E. destruct b as [|x b] using rev_ind.
    + apply app_inj_tail in E. destruct E as (<- & ->). apply (B p n q eq_refl).
    + clear IHb. assert (E' : rs ++ [r] = (a ++ RDirective DGroup (p ++ AType n :: q) :: b) ++ [x]) by (rewrite E, <- app_assoc; reflexivity). apply app_inj_tail in E'. destruct E' as (-> & _). apply (K a p n q b eq_refl).
Qed.
Lemma kept_other rs r : (forall args, r <> RDirective DGroup args) -> groupsKept rs -> groupsKept (rs ++ [r]).
Proof. intros N K. apply kept_snoc. split; [exact K|]. intros p n q E. destruct (N _ E). Qed.
Lemma kept_arg rs args n : groupsKept (plus rs DGroup args) -> (In n (defined rs) -> ~ In n (typesIn (dirEqb DGroup) (plus rs DGroup args))) -> groupsKept (plus rs DGroup (args ++ [AType n])).
Proof.
  unfold plus. rewrite !kept_snoc. intros (K & B) N. split; [exact K|]. intros p m q E. injection E as E. destruct q as [|x q] using rev_ind.
  - apply app_inj_tail in E. destruct E as (<- & E). injection E as <-. intros D. specialize (N D). rewrite typesIn_app, typesIn_dir in N. cbn [dirEqb] in N. rewrite in_app_iff in N. split; [tauto|]. intros I. apply N. right. apply flat_In. exists (AType n). split; [exact I|left; reflexivity].
  - clear IHq. assert (E' : args ++ [AType n] = (p ++ AType m :: q) ++ [x]) by (rewrite E, <- app_assoc; reflexivity). apply app_inj_tail in E'. destruct E' as (-> & _). apply (B p m q eq_refl).
Qed.
Lemma kept_string rs args s : groupsKept (plus rs DGroup args) -> groupsKept (plus rs DGroup (args ++ [AString s])).
Proof.
  unfold plus. rewrite !kept_snoc. intros (K & B). split; [exact K|]. intros p m q E. injection E as E. destruct q as [|x q] using rev_ind.
  - apply app_inj_tail in E. destruct E as (_ & E). discriminate.
  - clear IHq. assert (E' : args ++ [AString s] = (p ++ AType m :: q) ++ [x]) by (rewrite E, <- app_assoc; reflexivity). apply app_inj_tail in E'. destruct E' as (-> & _). apply (B p m q eq_refl).
Qed.
Lemma kept_start rs d : groupsKept rs -> groupsKept (plus rs d []).
Proof. intros K. apply kept_snoc. split; [exact K|]. intros p n q E. injection E as _ E. destruct p; discriminate. Qed.
Lemma kept_prefix a b : groupsKept (a ++ b) -> groupsKept a.
Proof. intros K x p n q y ->. apply (K x p n q (y ++ b)). rewrite <- app_assoc. reflexivity. Qed.
Lemma kept_apart rs : groupsApart rs -> groupsKept rs.
Proof.
  intros ND a p n q b -> _. unfold groupsApart in ND. replace (a ++ RDirective DGroup (p ++ AType n :: q) :: b) with (plus a DGroup (p ++ AType n :: q) ++ b) in ND by (unfold plus; rewrite <- app_assoc; reflexivity). rewrite typesIn_app in ND. unfold plus in ND. rewrite typesIn_app, typesIn_dir in ND. cbn [dirEqb] in ND. rewrite flat_app, flat_cons in ND. cbn [argType app] in ND.
  rewrite <- !app_assoc in ND. cbn [app] in ND. rewrite app_assoc in ND. apply NoDup_remove_2 in ND. rewrite in_app_iff in ND. split; [intros I; apply ND; left; apply in_or_app; left; exact I|]. intros I. apply ND. left. apply in_or_app. right. apply flat_In. exists (AType n). split; [exact I|left; reflexivity].
Qed.
(** flags as they are collected *)
Definition dirFlags (d : directive) : Z := match d with DSide => SideToken | DCaseless => CaselessToken | DExtern => ExternalToken | DError => ErrorToken | DLiteral => NoLiteralsToken | _ => 0 end.
Definition rawFlags (n : name) (rs : list record) : Z :=
  Z.lor (flag (listed DSide n rs) SideToken) (Z.lor (flag (listed DCaseless n rs) CaselessToken)
  (Z.lor (flag (listed DError n rs) ErrorToken) (Z.lor (flag (listed DExtern n rs) ExternalToken) (flag (listed DLiteral n rs) NoLiteralsToken)))).
Lemma listed_start d' d n rs : listed d' n (plus rs d []) = listed d' n rs.
Proof. unfold listed. rewrite typesIn_start. reflexivity. Qed.
Lemma listed_arg d' d n rs args a : listed d' n (plus rs d (args ++ [a])) = listed d' n (plus rs d args) || (dirEqb d' d && mem n (argType a)).
Proof. unfold listed. rewrite typesIn_arg, mem_app. destruct (dirEqb d' d); reflexivity. Qed.
Lemma rawFlags_start d n rs : rawFlags n (plus rs d []) = rawFlags n rs.
Proof. unfold rawFlags. rewrite !listed_start. reflexivity. Qed.
Lemma rawFlags_arg d n rs args a : rawFlags n (plus rs d (args ++ [a])) = if mem n (argType a) then Z.lor (rawFlags n (plus rs d args)) (dirFlags d) else rawFlags n (plus rs d args).
Proof.
  unfold rawFlags. rewrite !listed_arg. destruct (mem n (argType a)); [|rewrite !andb_false_r, !orb_false_r; reflexivity]. rewrite !andb_true_r.
  destruct (listed DSide n (plus rs d args)), (listed DCaseless n (plus rs d args)), (listed DError n (plus rs d args)), (listed DExtern n (plus rs d args)), (listed DLiteral n (plus rs d args)), d; reflexivity.
Qed.
Lemma rawFlags_none n rs : ~ In n (typesIn any rs) -> rawFlags n rs = 0.
Proof.
  intros N. assert (L : forall d, listed d n rs = false). { intros d. unfold listed. apply mem_not. intros I. apply N. clear N. unfold typesIn in *. rewrite flat_In in *. destruct I as (r & I & J). exists r. split; [exact I|]. destruct r; try exact J. destruct (dirEqb d d0); [exact J|destruct J]. }
  unfold rawFlags. rewrite !L. reflexivity.
Qed.
Lemma group_any n rs : In n (typesIn (dirEqb DGroup) rs) -> In n (typesIn any rs).
Proof. unfold typesIn. rewrite !flat_In. intros (r & I & J). exists r. split; [exact I|]. destruct r; try exact J. destruct (dirEqb DGroup d); [exact J|destruct J]. Qed.
Lemma NoDup_left {A} (a b : list A) : NoDup (a ++ b) -> NoDup a.
Proof. induction a as [|x a IH]; cbn; intros H; [constructor|]. inversion H as [|? ? N H']; subst. constructor; [intros I; apply N, in_or_app; left; exact I|apply IH, H']. Qed.
