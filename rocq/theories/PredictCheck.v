(** A check of tables: one token decides what to do.  The check computes what may come next for each state of each node; it does not
    have to be exact: it is sound. *)
From Coq Require Import ZArith List Bool Lia.
From Verif Require Import Base BaseProofs Grammar RulesSpec Parser ParserSpec ParserSafeSpec PredictSpec LangDrop.
Import ListNotations.
Open Scope Z_scope.

Section Check.
Variable g : grammar.
(** may a token match both? *)
Variable conflict : Z -> Z -> bool.

Definition rulesAt (j : Z) : list rule :=
  match zget (gStates g) j with
  | Some st => match zslice (gRules g) (sLow st) (sHigh st) with Some l => l | None => [] end
  | None => []
  end.
Definition readsB (r : rule) : bool := negb (rToken r =? AnyToken).
Definition ruleEqb (a b : rule) : bool := (rToken a =? rToken b) && (rState a =? rState b) && (rNode a =? rNode b).
Definition pairEqb (a b : Z * Z) : bool := (fst a =? fst b) && (snd a =? snd b).
Definition table := list ((Z * Z) * list Z).
Fixpoint look (p : Z * Z) (m : table) : option (list Z) :=
  match m with [] => None | (q, l) :: r => if pairEqb p q then Some l else look p r end.
Definition subset (a b : list Z) : bool := forallb (fun x => existsb (Z.eqb x) b) a.
Definition within (p : Z * Z) (l : list Z) (m : table) : bool := match look p m with Some l' => subset l l' | None => false end.
Definition leads (p : Z * Z) (m : table) (l : list Z) : bool := match look p m with Some l' => subset l' l | None => false end.

(** [m]: the states of the nodes and what may come next there *)
Definition closedB (m : table) : bool :=
  forallb (fun '(n, nt) => match look (n, gnFirst nt) m with Some _ => true | None => false end) (combine (map Z.of_nat (seq 0 (length (gNodes g)))) (gNodes g)) &&
  forallb (fun '((n, j), l) =>
    forallb (fun r => (match look (n, rState r) m with Some _ => true | None => false end) &&
      (if readsB r then existsb (Z.eqb (rToken r)) l else leads (n, rState r) m l) &&
      (match look (rNode r, FinalState) m, look (n, rState r) m with Some l', Some l2 => subset l2 l' | Some _, None => false | None, _ => true end)) (rulesAt j)) m &&
  match look (RootNode, FinalState) m with Some l => existsb (Z.eqb EoiTokenType) l | None => true end.
Definition apartB (m : table) : bool :=
  (match gMultiRules g with [] => true | _ => false end) &&
  forallb (fun j => forallb (fun r => forallb (fun r' => negb (readsB r && readsB r' && conflict (rToken r) (rToken r')) || ruleEqb r r') (rulesAt j)) (rulesAt j)) (map Z.of_nat (seq 0 (length (gStates g)))) &&
  forallb (fun '((n, j), _) => forallb (fun r => readsB r || forallb (fun r' => negb (readsB r') ||
     match look (n, rState r) m with Some l => forallb (fun k => negb (conflict k (rToken r'))) l | None => false end) (rulesAt j)) (rulesAt j)) m.

(** a table that passes, if there is one: states of nodes are collected, then sets grow *)
Definition addPair (m : table) (p : Z * Z) : table := match look p m with Some _ => m | None => m ++ [(p, [])] end.
Definition addKey (l : list Z) (k : Z) : list Z := if existsb (Z.eqb k) l then l else l ++ [k].
Fixpoint update (p : Z * Z) (ks : list Z) (m : table) : table :=
  match m with [] => [] | (q, l) :: r => if pairEqb p q then (q, fold_left addKey ks l) :: r else (q, l) :: update p ks r end.
Definition nextOf (p : Z * Z) (m : table) : list Z := match look p m with Some l => l | None => [] end.
Definition growStates (m : table) : table := fold_left (fun m '((n, j), _) => fold_left (fun m r => addPair m (n, rState r)) (rulesAt j) m) m m.
Definition growKeys (m : table) : table :=
  fold_left (fun m '((n, j), _) => fold_left (fun m r =>
    let m := if readsB r then update (n, j) [rToken r] m else update (n, j) (nextOf (n, rState r) m) m in
    update (rNode r, FinalState) (nextOf (n, rState r) m) m) (rulesAt j) m) m m.
Definition findTable (fuel : nat) : table :=
  let m := fold_left addPair (map (fun '(n, nt) => (n, gnFirst nt)) (combine (map Z.of_nat (seq 0 (length (gNodes g)))) (gNodes g))) [] in
  let m := Nat.iter fuel growStates m in
  let m := update (RootNode, FinalState) [EoiTokenType] m in
  Nat.iter fuel growKeys m.
Definition predictiveB (fuel : nat) : bool := let m := findTable fuel in closedB m && apartB m.
End Check.

Section Sound.
Context {Tok Src W E Inst R : Type}.
Variable c : config Tok Src W E Inst R.
Notation g := (cGrammar c).
Notation tokenMatches := (tokenMatches (cType c) (cText c) (cUpper c) g).
Variable lexed : Tok -> Prop.
Variable conflict : Z -> Z -> bool.
Hypothesis CF : forall t k k', lexed t -> k <> AnyToken -> k' <> AnyToken -> tokenMatches t k -> tokenMatches t k' -> conflict k k' = true.

Lemma pairEqb_iff a b : pairEqb a b = true <-> a = b.
Proof. destruct a, b. unfold pairEqb. cbn. rewrite andb_true_iff, !Z.eqb_eq. split; [intros (-> & ->); reflexivity|intros X; injection X; auto]. Qed.
Lemma look_In p m l : look p m = Some l -> In (p, l) m.
Proof.
  induction m as [|(q, x) m IH]; [discriminate|]. cbn [look]. destruct (pairEqb p q) eqn:X.
  - apply pairEqb_iff in X. subst q. intros H. injection H as <-. left. reflexivity.
  - intros H. right. apply IH, H.
Qed.
Lemma member x l : existsb (Z.eqb x) l = true <-> In x l.
Proof. rewrite existsb_exists. split; [intros (y & I & H); apply Z.eqb_eq in H; congruence|intros I; exists x; split; [exact I|apply Z.eqb_refl]]. Qed.
Lemma subset_In a b : subset a b = true -> forall x, In x a -> In x b.
Proof. unfold subset. rewrite forallb_forall. intros H x I. apply member, H, I. Qed.
Lemma readsB_iff r : readsB r = true <-> reads r.
Proof. unfold readsB, reads. rewrite negb_true_iff, Z.eqb_neq. reflexivity. Qed.
Lemma ruleEqb_eq a b : ruleEqb a b = true -> a = b.
Proof. destruct a, b. unfold ruleEqb. cbn. rewrite !andb_true_iff, !Z.eqb_eq. intros ((-> & ->) & ->). reflexivity. Qed.

Section Cert.
Variable m : table.
Hypothesis CL : closedB g m = true.
Hypothesis AP : apartB g conflict m = true.

Lemma no_multi : gMultiRules g = [].
Proof. unfold apartB in AP. rewrite !andb_true_iff in AP. destruct AP as ((A & _) & _). destruct (gMultiRules g); [reflexivity|discriminate]. Qed.
Lemma rules_at j r : ruleOf g j r -> In r (rulesAt g j).
Proof.
  intros (st & rules & multi & rs & G & SR & SM & HR & IR). unfold rulesAt. rewrite G, SR. inversion HR as [r0 I0 E0|x rs0 Im E1 E2]; subst; [destruct IR as [<-|[]]; exact I0|].
  rewrite no_multi in SM. unfold zslice in SM. destruct (_ && _ && _); [|discriminate]. injection SM as <-. rewrite skipn_nil, firstn_nil in Im. destruct Im.
Qed.
Lemma step_closed n j l r : look (n, j) m = Some l -> ruleOf g j r -> exists l2, look (n, rState r) m = Some l2 /\ (reads r -> In (rToken r) l) /\ (~ reads r -> forall k, In k l2 -> In k l) /\
  (forall l', look (rNode r, FinalState) m = Some l' -> forall k, In k l2 -> In k l').
Proof.
  intros L HR. unfold closedB in CL. rewrite !andb_true_iff in CL. destruct CL as ((_ & X) & _). rewrite forallb_forall in X. specialize (X _ (look_In _ _ _ L)). cbn in X. rewrite forallb_forall in X. specialize (X r (rules_at j r HR)).
  rewrite !andb_true_iff in X. destruct X as ((X1 & X2) & X3). destruct (look (n, rState r) m) as [l2|] eqn:L2; [|discriminate]. exists l2. split; [reflexivity|]. split; [|split].
  - intros RD. apply readsB_iff in RD. rewrite RD in X2. apply member, X2.
  - intros RD k K. destruct (readsB r) eqn:RB; [apply readsB_iff in RB; contradiction|]. unfold leads in X2. rewrite L2 in X2. eapply subset_In; eassumption.
  - intros l' L' k K. rewrite L' in X3. eapply subset_In; eassumption.
Qed.
Lemma owned n j : ofNode c n j -> exists l, look (n, j) m = Some l.
Proof.
  induction 1 as [n nt G|n j r O (l & IH) HR].
  - unfold closedB in CL. rewrite !andb_true_iff in CL. destruct CL as ((X & _) & _). rewrite forallb_forall in X.
    assert (I : In (n, nt) (combine (map Z.of_nat (seq 0 (length (gNodes g)))) (gNodes g))).
    { unfold zget in G. destruct (Z.ltb_spec n 0) as [|P]; [discriminate|]. assert (Y : forall (l : list gnode) s k nt, nth_error l k = Some nt -> In (Z.of_nat (s + k), nt) (combine (map Z.of_nat (seq s (length l))) l)).
      { induction l as [|x l IH]; intros s [|k] nt' H; try discriminate; cbn in *.
        - injection H as ->. left. f_equal. lia.
        - right. specialize (IH (S s) k nt' H). replace (s + S k)%nat with (S s + k)%nat by lia. exact IH. }
      specialize (Y _ 0%nat _ _ G). cbn [plus] in Y. rewrite Z2Nat.id in Y by exact P. exact Y. }
    specialize (X _ I). cbn in X. destruct (look (n, gnFirst nt) m); [eauto|discriminate].
  - destruct (step_closed n j l r IH HR) as (l2 & X & _). eauto.
Qed.
Lemma next_in n j t : comesNext c n j t -> forall l, look (n, j) m = Some l -> exists k, In k l /\ k <> AnyToken /\ tokenMatches t k.
Proof.
  induction 1 as [n j r t HR RD TM|n j r t HR RT CN IH|n i j r t O HR RN CN IH|t TY]; intros l L.
  - destruct (step_closed n j l r L HR) as (_ & _ & X & _). exists (rToken r). split; [apply X, RD|]. split; [exact RD|exact TM].
  - destruct (step_closed n j l r L HR) as (l2 & L2 & _ & X & _). destruct (IH l2 L2) as (k & K & Y). exists k. split; [|exact Y]. apply X; [|exact K]. intros RD. destruct (RD RT).
  - destruct (owned _ _ O) as (l0 & L0). destruct (step_closed i j l0 r L0 HR) as (l2 & L2 & _ & _ & X). destruct (IH l2 L2) as (k & K & Y). exists k. split; [|exact Y]. subst n. eapply X; eassumption.
  - unfold closedB in CL. rewrite !andb_true_iff in CL. destruct CL as (_ & X). rewrite L in X. apply member in X. exists EoiTokenType. split; [exact X|]. split; [discriminate|].
    exists [cType c t; AnyToken]. split; [apply K_type|left; exact TY]. intros i [d GT _ _]. rewrite TY in GT. discriminate.
Qed.
Lemma cert_predictive : predictive c lexed.
Proof.
  pose proof AP as X. unfold apartB in X. rewrite !andb_true_iff in X. destruct X as ((_ & X2) & X3). split.
  - exact no_multi.
  - intros j r r' t HR HR' RD RD' LX TM TM'. rewrite forallb_forall in X2. assert (J : In j (map Z.of_nat (seq 0 (length (gStates g))))).
    { destruct HR as (st & _ & _ & _ & G & _). apply zget_Some_inv in G. unfold zlen in G. apply in_map_iff. exists (Z.to_nat j). split; [lia|]. apply in_seq. lia. }
    specialize (X2 j J). cbn in X2. rewrite forallb_forall in X2. specialize (X2 r (rules_at j r HR)). cbn in X2. rewrite forallb_forall in X2. specialize (X2 r' (rules_at j r' HR')). cbn in X2.
    apply readsB_iff in RD as RB. apply readsB_iff in RD' as RB'. rewrite RB, RB', (CF t _ _ LX RD RD' TM TM') in X2. cbn in X2. apply ruleEqb_eq, X2.
  - intros n j r r' t O HR RT HR' RD' LX TM' CN. destruct (owned _ _ O) as (l & L). destruct (step_closed n j l r L HR) as (l2 & L2 & _). destruct (next_in _ _ _ CN l2 L2) as (k & K & KA & TM).
    rewrite forallb_forall in X3. specialize (X3 _ (look_In _ _ _ L)). cbn in X3. rewrite forallb_forall in X3. specialize (X3 r (rules_at j r HR)). cbn in X3.
    assert (RB : readsB r = false) by (unfold readsB; rewrite RT; reflexivity). rewrite RB in X3. cbn [orb] in X3. rewrite forallb_forall in X3. specialize (X3 r' (rules_at j r' HR')). cbn in X3.
    apply readsB_iff in RD' as RB'. rewrite RB', L2 in X3. cbn [negb orb] in X3. rewrite forallb_forall in X3. specialize (X3 k K). rewrite (CF t k (rToken r') LX KA RD' TM TM') in X3. discriminate.
Qed.
End Cert.
(** Tables that pass the check are LL(1) ones. *)
Theorem predictive_checked fuel : predictiveB g conflict fuel = true -> predictive c lexed.
Proof. unfold predictiveB. intros H. apply andb_true_iff in H. destruct H as (A & B). eapply cert_predictive; eassumption. Qed.
End Sound.
