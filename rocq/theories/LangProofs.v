(** Operations on states under construction. *)
From Coq Require Import ZArith List Bool Lia Permutation.
From Verif Require Import Base BaseProofs Grammar LangBuild LangSpec.
Import ListNotations.
Open Scope Z_scope.

Lemma obind_inv {A B} (o : option A) (f : A -> option B) b : obind o f = Some b -> exists a, o = Some a /\ f a = Some b.
Proof. destruct o as [a|]; [eauto|discriminate]. Qed.
Ltac ob H := let x := fresh "x" in let H1 := fresh H in apply obind_inv in H; destruct H as (x & H1 & H).

(** ** Maps *)
Section Maps.
Context {V : Type}.
Implicit Types (m : list (Z * V)).

Lemma mput_keys k (v : V) m : map fst (mput k v m) = if existsb (Z.eqb k) (map fst m) then map fst m else map fst m ++ [k].
Proof.
  induction m as [|(k', v') m IH]; [reflexivity|]. cbn [mput map fst existsb].
  destruct (Z.eqb_spec k k') as [->|N]; [reflexivity|]. cbn [map fst orb]. rewrite IH.
  destruct (existsb _ _); reflexivity.
Qed.
Lemma existsb_eqb k l : existsb (Z.eqb k) l = true <-> In k l.
Proof.
  rewrite existsb_exists. split.
  - intros (x & X & Y). apply Z.eqb_eq in Y. subst. exact X.
  - intros X. exists k. split; [exact X|apply Z.eqb_refl].
Qed.
Lemma mput_nodup k (v : V) m : NoDup (map fst m) -> NoDup (map fst (mput k v m)).
Proof.
  intros N. rewrite mput_keys. destruct (existsb (Z.eqb k) (map fst m)) eqn:X; [exact N|].
  apply NoDup_app_remove_l with (l := []) || idtac.
  apply Permutation_NoDup with (l := k :: map fst m); [apply Permutation_cons_append|].
  constructor; [|exact N]. intros C. apply existsb_eqb in C. congruence.
Qed.
Lemma mput_In k (v : V) m x : NoDup (map fst m) -> (In x (mput k v m) <-> x = (k, v) \/ (In x m /\ fst x <> k)).
Proof.
  induction m as [|(k', v') m IH]; intros N.
  - cbn. split; [intros [<-|[]]; auto|intros [->|[[] _]]; auto].
  - cbn [map fst] in N. inversion N as [|? ? N1 N2]; subst. cbn [mput].
    destruct (Z.eqb_spec k k') as [->|NE].
    + cbn [In]. split.
      * intros [<-|X]; [auto|]. right. split; [auto|]. intros Q. apply N1. rewrite <- Q. apply in_map, X.
      * intros [->|[[X|X] Q]]; [auto| |auto]. subst x. contradiction Q; reflexivity.
    + cbn [In]. rewrite (IH N2). split.
      * intros [X|[X|[X Q]]]; [|auto|auto]. subst x. right. split; [auto|]. cbn. congruence.
      * intros [X|[[X|X] Q]]; auto.
Qed.
Lemma mget_In k (v : V) m : NoDup (map fst m) -> (mget k m = Some v <-> In (k, v) m).
Proof.
  induction m as [|(k', v') m IH]; intros N.
  - cbn. split; [discriminate|intros []].
  - cbn [map fst] in N. inversion N as [|? ? N1 N2]; subst. cbn [mget In].
    destruct (Z.eqb_spec k k') as [->|NE].
    + split; [intros [= ->]; auto|intros [[= ->]|X]; [reflexivity|]].
      contradiction N1. apply in_map_iff. exists (k', v). auto.
    + rewrite (IH N2). split; [auto|]. intros [[= X1 X2]|X]; [congruence|auto].
Qed.
Lemma mget_None k m : mget k m = None <-> ~ In k (map fst m).
Proof.
  induction m as [|(k', v') m IH]; [cbn; tauto|]. cbn [mget map fst In].
  destruct (Z.eqb_spec k k') as [->|NE]; [split; [discriminate|intros X; contradiction X; auto]|].
  rewrite IH. split; [intros X [Y|Y]; [congruence|auto]|auto].
Qed.
End Maps.

(** ** Well formed states *)
Record entryOk (e : entry) : Prop := mkEntryOk {
  eo_pos : NoDup (map fst (ePos e));
  eo_neg : NoDup (map fst (eNeg e));
  eo_posKey : forall k rs, In (k, rs) (ePos e) -> 0 <= k /\ rs <> [] /\ forall r, In r rs -> rToken r = k;
  eo_negKey : forall k i r, In (k, (i, r)) (eNeg e) -> k < 0 /\ rToken r = k
}.
Lemma empty_entryOk t : entryOk (mkEntry t [] []).
Proof. split; cbn; try constructor; try easy. Qed.

(** *** Tokens and negative keys *)
Definition posRules (m : list (Z * list rule)) : list rule := concat (map snd m).
Definition negRules (m : list (Z * (Z * rule))) : list rule := map (fun x => snd (snd x)) m.
Lemma allRules_eq e : allRules e = posRules (ePos e) ++ negRules (eNeg e).
Proof. reflexivity. Qed.
Lemma posRules_In m r : In r (posRules m) <-> exists k rs, In (k, rs) m /\ In r rs.
Proof.
  unfold posRules. rewrite in_concat. split.
  - intros (rs & X & Y). apply in_map_iff in X. destruct X as ((k, rs') & <- & X). eauto.
  - intros (k & rs & X & Y). exists rs. split; [|exact Y]. apply in_map_iff. exists (k, rs). auto.
Qed.
Lemma negRules_In m r : In r (negRules m) <-> exists k i, In (k, (i, r)) m.
Proof.
  unfold negRules. rewrite in_map_iff. split.
  - intros ((k, (i, r')) & <- & X). eauto.
  - intros (k & i & X). exists (k, (i, r)). auto.
Qed.
Lemma pos_sign e r : entryOk e -> In r (posRules (ePos e)) -> 0 <= rToken r.
Proof. intros O X. apply posRules_In in X. destruct X as (k & rs & X & Y). destruct (eo_posKey e O k rs X) as (A & B & C). rewrite (C r Y). exact A. Qed.
Lemma neg_sign e r : entryOk e -> In r (negRules (eNeg e)) -> rToken r < 0.
Proof. intros O X. apply negRules_In in X. destruct X as (k & i & X). destruct (eo_negKey e O k i r X) as (A & B). lia. Qed.

Lemma appendRules_nodup k rs m : NoDup (map fst m) -> NoDup (map fst (appendRules k rs m)).
Proof. intros N. unfold appendRules. destruct (mget k m); apply mput_nodup, N. Qed.
Lemma appendRules_In k rs m x : NoDup (map fst m) ->
  (In x (appendRules k rs m) <-> x = (k, match mget k m with Some old => old ++ rs | None => rs end) \/ (In x m /\ fst x <> k)).
Proof. intros N. unfold appendRules. destruct (mget k m); rewrite mput_In by exact N; reflexivity. Qed.
Lemma appendRules_rules k rs m r : NoDup (map fst m) ->
  (In r (posRules (appendRules k rs m)) <-> In r rs \/ In r (posRules m)).
Proof.
  intros N. rewrite !posRules_In. split.
  - intros (k' & rs' & X & Y). apply appendRules_In in X; [|exact N]. destruct X as [[= -> ->]|[X Q]]; [|eauto].
    destruct (mget k m) as [old|] eqn:M; [|auto]. apply in_app_iff in Y. destruct Y as [Y|Y]; [|auto].
    right. apply mget_In in M; [|exact N]. eauto.
  - intros [X|(k' & rs' & X & Y)].
    + exists k. eexists. split; [apply appendRules_In; [exact N|left; reflexivity]|].
      destruct (mget k m); [apply in_app_iff|]; auto.
    + destruct (Z.eq_dec k' k) as [->|NE].
      * exists k. eexists. split; [apply appendRules_In; [exact N|left; reflexivity]|].
        pose proof (proj2 (mget_In k rs' m N) X) as M. rewrite M. apply in_app_iff. auto.
      * exists k', rs'. split; [|exact Y]. apply appendRules_In; auto.
Qed.
Definition posOk (m : list (Z * list rule)) : Prop :=
  forall k rs, In (k, rs) m -> 0 <= k /\ rs <> [] /\ forall r, In r rs -> rToken r = k.
Lemma appendRules_ok k rs m : NoDup (map fst m) -> posOk m -> 0 <= k -> rs <> [] -> (forall r, In r rs -> rToken r = k) ->
  posOk (appendRules k rs m).
Proof.
  intros N O K NE T k' rs' X. apply appendRules_In in X; [|exact N]. destruct X as [[= -> ->]|[X _]]; [|apply O, X].
  split; [exact K|]. destruct (mget k m) as [old|] eqn:M; [|auto]. apply mget_In in M; [|exact N].
  destruct (O _ _ M) as (_ & _ & C). split; [destruct old; [exact NE|discriminate]|].
  intros r Y. apply in_app_iff in Y. destruct Y; auto.
Qed.

Lemma appendAll fs : forall m, NoDup (map fst m) -> posOk m -> posOk fs ->
  let m' := fold_left (fun m '(k, rs) => appendRules k rs m) fs m in
  NoDup (map fst m') /\ posOk m' /\ (forall r, In r (posRules m') <-> In r (posRules fs) \/ In r (posRules m)).
Proof.
  induction fs as [|(k, rs) fs IH]; intros m N O F; cbn [fold_left].
  - split; [exact N|]. split; [exact O|]. intros r. cbn. tauto.
  - destruct (F k rs (or_introl eq_refl)) as (K & NE & T).
    specialize (IH (appendRules k rs m) (appendRules_nodup _ _ _ N) (appendRules_ok _ _ _ N O K NE T) (fun k' rs' X => F k' rs' (or_intror X))).
    destruct IH as (A & B & C). split; [exact A|]. split; [exact B|]. intros r. rewrite (C r), (appendRules_rules _ _ _ _ N).
    unfold posRules. cbn [map concat snd]. rewrite in_app_iff. tauto.
Qed.
Lemma putAll {V} (fs : list (Z * V)) : forall m, NoDup (map fst m) -> NoDup (map fst fs) ->
  let m' := fold_left (fun m '(k, cell) => mput k cell m) fs m in
  NoDup (map fst m') /\ (forall x, In x m' <-> In x fs \/ (In x m /\ ~ In (fst x) (map fst fs))).
Proof.
  induction fs as [|(k, v) fs IH]; intros m N F; cbn [fold_left].
  - split; [exact N|]. intros x. cbn. tauto.
  - cbn [map fst] in F. inversion F as [|? ? F1 F2]; subst.
    specialize (IH (mput k v m) (mput_nodup _ _ _ N) F2). destruct IH as (A & B). split; [exact A|].
    intros x. rewrite (B x), (mput_In _ _ _ _ N). cbn [map fst In]. split.
    + intros [X|[[X|[X Q]] Y]]; [auto| |].
      * subst x. auto.
      * right. split; [exact X|]. intros [C|C]; [congruence|auto].
    + intros [[X|X]|[X Q]].
      * subst x. right. split; [auto|exact F1].
      * auto.
      * right. split; [|tauto]. right. split; [exact X|]. intros C. apply Q. auto.
Qed.

(** ** Tables under construction *)
Notation sts := prStates.
Definition okP (p : pres) : Prop := forall i e, zget (sts p) i = Some e -> entryOk e.
Definition has (p : pres) (i : Z) (r : rule) : Prop := hasRule (sts p) i r.
Definition live (p : pres) (i : Z) : Prop := 0 <= i < zlen (sts p).
(** only the state [i] may differ *)
Definition onlyAt (p p' : pres) (i : Z) : Prop :=
  zlen (sts p') = zlen (sts p) /\ forall q, q <> i -> zget (sts p') q = zget (sts p) q.

Lemma live_entry p i : live p i -> exists e, zget (sts p) i = Some e.
Proof. intros L. eexists. apply (zget_Some (sts p) i (mkEntry 0 [] []) L). Qed.
Lemma entry_live p i e : zget (sts p) i = Some e -> live p i.
Proof. apply zget_Some_inv. Qed.

Lemma zget_upd {A} (l : list A) i x q : 0 <= i < zlen l -> zget (upd l (Z.to_nat i) x) q = if q =? i then Some x else zget l q.
Proof.
  intros L. unfold zget. destruct (Z.ltb_spec q 0).
  - destruct (Z.eqb_spec q i); [lia|reflexivity].
  - rewrite nth_error_upd by (unfold zlen in L; lia).
    destruct (Z.eqb_spec q i) as [->|NE]; [rewrite Nat.eqb_refl; reflexivity|].
    destruct (Nat.eqb_spec (Z.to_nat q) (Z.to_nat i)); [lia|reflexivity].
Qed.
Lemma zset_get {A} (l l' : list A) i x : zset l i x = Some l' ->
  0 <= i < zlen l /\ zlen l' = zlen l /\ forall q, zget l' q = if q =? i then Some x else zget l q.
Proof.
  intros H. apply zset_inv in H. destruct H as (L & ->). split; [exact L|].
  split; [unfold zlen; rewrite upd_length; reflexivity|]. intros q. apply zget_upd, L.
Qed.

Lemma setState_inv p i e p' : setState p i e = Some p' ->
  live p i /\ onlyAt p p' i /\ zget (sts p') i = Some e /\ prCells p' = prCells p.
Proof.
  intros H. unfold setState in H. ob H. injection H as <-. apply zset_get in H0. destruct H0 as (L & Z & G).
  split; [exact L|]. split; [split; [exact Z|]|split; [|reflexivity]].
  - intros q NE. cbn [sts prStates]. rewrite G. destruct (Z.eqb_spec q i); [contradiction|reflexivity].
  - cbn [sts prStates]. rewrite G, Z.eqb_refl. reflexivity.
Qed.
Lemma setState_total p i e : live p i -> exists p', setState p i e = Some p'.
Proof. intros L. unfold setState. rewrite (zset_Some (sts p) i e L). cbn. eauto. Qed.

Lemma has_at p i r e : zget (sts p) i = Some e -> (has p i r <-> In r (posRules (ePos e)) \/ In r (negRules (eNeg e))).
Proof.
  intros G. unfold has, hasRule. split.
  - intros (e' & X & Y). rewrite G in X. injection X as <-. rewrite allRules_eq, in_app_iff in Y. exact Y.
  - intros X. exists e. split; [exact G|]. rewrite allRules_eq, in_app_iff. exact X.
Qed.
Lemma onlyAt_ok p p' i e : okP p -> onlyAt p p' i -> zget (sts p') i = Some e -> entryOk e -> okP p'.
Proof.
  intros O (_ & F) G E q e' G'. destruct (Z.eq_dec q i) as [->|NE]; [congruence|]. rewrite F in G' by exact NE. eapply O, G'.
Qed.

(** the effect of [addRule1] *)
Lemma addRule1_spec p i st nt k p' : okP p -> addRule1 p i st nt k = Some p' ->
  live p i /\ onlyAt p p' i /\ okP p' /\
  forall r, has p' i r <-> r = mkRule k st nt \/ (has p i r /\ (k < 0 -> rToken r <> k)).
Proof.
  intros O H. unfold addRule1 in H. ob H. rename x into e. rename H0 into G. pose proof (O _ _ G) as E.
  destruct (Z.leb_spec 0 k) as [K|K].
  - destruct (setState_inv _ _ _ _ H) as (L & F & G' & _).
    assert (PO : posOk (appendRules k [mkRule k st nt] (ePos e))).
    { apply appendRules_ok; [exact (eo_pos e E)|exact (eo_posKey e E)|exact K|discriminate|]. intros r [<-|[]]. reflexivity. }
    assert (E' : entryOk (mkEntry (eTypes e) (appendRules k [mkRule k st nt] (ePos e)) (eNeg e))).
    { split; cbn [ePos eNeg]; [exact (appendRules_nodup _ _ _ (eo_pos e E))|exact (eo_neg e E)|exact PO|exact (eo_negKey e E)]. }
    split; [exact L|]. split; [exact F|]. split; [exact (onlyAt_ok _ _ _ _ O F G' E')|].
    intros r. rewrite (has_at _ _ r _ G'), (has_at _ _ r _ G). cbn [ePos eNeg].
    rewrite (appendRules_rules _ _ _ _ (eo_pos e E)). cbn [In]. split.
    + intros [[[<-|[]]|X]|X]; [auto| |]; right; (split; [auto|lia]).
    + intros [->|[[X|X] _]]; auto.
  - ob H. injection H as <-. rename x into p1. destruct (setState_inv _ _ _ _ H0) as (L & F & G' & _).
    assert (E' : entryOk (mkEntry (eTypes e) (ePos e) (mput k (prCells p, mkRule k st nt) (eNeg e)))).
    { split; cbn [ePos eNeg]; [exact (eo_pos e E)|exact (mput_nodup _ _ _ (eo_neg e E))|exact (eo_posKey e E)|].
      intros k' i' r X. apply mput_In in X; [|exact (eo_neg e E)]. destruct X as [[= -> -> ->]|[X _]]; [auto|]. exact (eo_negKey e E _ _ _ X). }
    split; [exact L|]. split; [exact F|]. split.
    + intros q e' G1. cbn [sts prStates] in G1. eapply (onlyAt_ok p p1 i _ O F G' E'), G1.
    + intros r. unfold has. cbn [sts prStates]. fold (has p1 i r) (has p i r).
      rewrite (has_at _ _ r _ G'), (has_at _ _ r _ G). cbn [ePos eNeg]. split.
      * intros [X|X].
        -- right. split; [auto|]. intros _. pose proof (pos_sign _ _ E X). lia.
        -- apply negRules_In in X. destruct X as (k' & i' & X). apply mput_In in X; [|exact (eo_neg e E)].
           destruct X as [[= -> -> ->]|[X Q]]; [auto|]. cbn [fst] in Q. right.
           split; [right; apply negRules_In; eauto|]. intros _. destruct (eo_negKey _ E _ _ _ X) as (_ & ->). exact Q.
      * intros [->|[[X|X] Q]].
        -- right. apply negRules_In. exists k, (prCells p). apply mput_In; [exact (eo_neg e E)|auto].
        -- auto.
        -- right. apply negRules_In in X. destruct X as (k' & i' & X). apply negRules_In. exists k', i'.
           apply mput_In; [exact (eo_neg e E)|]. right. split; [exact X|]. cbn [fst].
           destruct (eo_negKey _ E _ _ _ X) as (_ & T). rewrite <- T. auto.
Qed.
Lemma addRule1_total p i st nt k : live p i -> exists p', addRule1 p i st nt k = Some p'.
Proof.
  intros L. unfold addRule1. destruct (live_entry _ _ L) as (e & ->). cbn [obind].
  destruct (0 <=? k); [apply setState_total, L|].
  match goal with |- context [setState ?a ?b ?c] => destruct (setState_total a b c L) as (p1 & ->) end.
  cbn. eauto.
Qed.

(** the effect of [copyRules] *)
Lemma copyRules_spec p to from p' : okP p -> copyRules p to from = Some p' ->
  live p to /\ live p from /\ onlyAt p p' to /\ okP p' /\
  forall r, has p' to r <-> has p from r \/ (has p to r /\ (rToken r < 0 -> forall r', has p from r' -> rToken r' <> rToken r)).
Proof.
  intros O H. unfold copyRules in H. ob H. rename x into f. rename H0 into Gf. ob H. rename x into e. rename H0 into Ge.
  pose proof (O _ _ Gf) as Ef. pose proof (O _ _ Ge) as Ee.
  destruct (setState_inv _ _ _ _ H) as (L & F & G' & _).
  destruct (appendAll (ePos f) (ePos e) (eo_pos _ Ee) (eo_posKey _ Ee) (eo_posKey _ Ef)) as (A1 & A2 & A3).
  destruct (putAll (eNeg f) (eNeg e) (eo_neg _ Ee) (eo_neg _ Ef)) as (B1 & B2).
  set (pos := fold_left _ (ePos f) (ePos e)) in *. set (neg := fold_left _ (eNeg f) (eNeg e)) in *.
  assert (E' : entryOk (mkEntry (eTypes e) pos neg)).
  { split; cbn [ePos eNeg]; [exact A1|exact B1|exact A2|].
    intros k i r X. apply B2 in X. destruct X as [X|[X _]]; [apply (eo_negKey _ Ef _ _ _ X)|apply (eo_negKey _ Ee _ _ _ X)]. }
  split; [exact L|]. split; [exact (entry_live _ _ _ Gf)|]. split; [exact F|]. split; [exact (onlyAt_ok _ _ _ _ O F G' E')|].
  intros r. rewrite (has_at _ _ r _ G'), (has_at _ _ r _ Ge), (has_at _ _ r _ Gf). cbn [ePos eNeg]. rewrite A3. split.
  - intros [[X|X]|X]; [auto| |].
    + right. split; [auto|]. pose proof (pos_sign _ _ Ee X). lia.
    + apply negRules_In in X. destruct X as (k & i & X). apply B2 in X. destruct X as [X|[X Q]].
      * left. right. apply negRules_In. eauto.
      * right. split; [right; apply negRules_In; eauto|]. intros _ r' X'. apply (has_at _ _ r' _ Gf) in X'.
        destruct (eo_negKey _ Ee _ _ _ X) as (K & T). cbn [fst] in Q.
        destruct X' as [X'|X'].
        -- pose proof (pos_sign _ _ Ef X'). lia.
        -- apply negRules_In in X'. destruct X' as (k' & i' & X'). destruct (eo_negKey _ Ef _ _ _ X') as (_ & T').
           intros C. apply Q. assert (KK : k' = k) by congruence. rewrite KK in X'. apply in_map_iff. exists (k, (i', r')). split; [reflexivity|exact X'].
  - intros [[X|X]|[[X|X] Q]]; [auto| |auto|].
    + right. apply negRules_In in X. destruct X as (k & i & X). apply negRules_In. exists k, i. apply B2. auto.
    + right. pose proof (neg_sign _ _ Ee X) as NS. specialize (Q NS).
      apply negRules_In in X. destruct X as (k & i & X). apply negRules_In. exists k, i. apply B2. right. split; [exact X|].
      cbn [fst]. destruct (eo_negKey _ Ee _ _ _ X) as (K & T). intros C. apply in_map_iff in C.
      destruct C as ((k', (i', r')) & C1 & C2). cbn [fst] in C1. subst k'.
      destruct (eo_negKey _ Ef _ _ _ C2) as (_ & T'). apply (Q r'); [|congruence].
      apply (has_at _ _ r' _ Gf). right. apply negRules_In. eauto.
Qed.
Lemma copyRules_total p to from : live p to -> live p from -> exists p', copyRules p to from = Some p'.
Proof.
  intros L L'. unfold copyRules. destruct (live_entry _ _ L') as (e' & ->). destruct (live_entry _ _ L) as (e & ->).
  cbn [obind]. apply setState_total, L.
Qed.

(** a new state *)
Lemma addState_spec p i p' : addState p = (i, p') ->
  i = zlen (sts p) /\ zlen (sts p') = zlen (sts p) + 1 /\
  (forall q, q <> i -> zget (sts p') q = zget (sts p) q) /\ zget (sts p') i = Some (mkEntry 0 [] []) /\ prCells p' = prCells p.
Proof.
  intros [= <- <-]. cbn [sts prStates prCells]. split; [reflexivity|].
  split; [unfold zlen; rewrite app_length; cbn; lia|]. unfold zget.
  split; [|split; [|reflexivity]].
  - intros q NE. destruct (Z.ltb_spec q 0); [reflexivity|].
    destruct (Nat.lt_ge_cases (Z.to_nat q) (length (sts p))) as [LT|GE].
    + apply nth_error_app1, LT.
    + rewrite (proj2 (nth_error_None _ _)), (proj2 (nth_error_None _ _)); [reflexivity|exact GE|].
      unfold zlen in NE. rewrite app_length. cbn. lia.
  - pose proof (zlen_nonneg (sts p)). destruct (Z.ltb_spec (zlen (sts p)) 0); [lia|].
    rewrite nth_error_app2 by (unfold zlen; lia). replace (Z.to_nat _ - _)%nat with 0%nat by (unfold zlen; lia). reflexivity.
Qed.
Lemma addState_ok p i p' : okP p -> addState p = (i, p') -> okP p'.
Proof.
  intros O H q e G. apply addState_spec in H. destruct H as (-> & _ & F & G' & _).
  destruct (Z.eq_dec q (zlen (sts p))) as [->|NE].
  - rewrite G' in G. injection G as <-. apply empty_entryOk.
  - rewrite F in G by exact NE. eapply O, G.
Qed.
