(** State machines made of definitions without left recursion and without repetitions of something empty: states can be ranked so that moves
    which read nothing always go down. *)
From Coq Require Import ZArith QArith List Bool Lia Lqa Relations Wellfounded.
From Verif Require Import Base BaseProofs Grammar LangBuild LangSpec LangProofs LangFrame LangComplete LangSound LangNodesSpec LangIdleSpec.
From Verif Require ParserIdle.
Import ListNotations.
Open Scope Z_scope.

(** ** Numbers *)
Lemma below (L : list Q) : forall x, (forall y, In y L -> (y < x)%Q) -> exists z, (z < x)%Q /\ forall y, In y L -> (y < z)%Q.
Proof.
  induction L as [|a L IH]; intros x H.
  - exists (x - 1)%Q. split; [lra|intros y []].
  - destruct (IH x (fun y Y => H y (or_intror Y))) as (z & Z1 & Z2). destruct (Qlt_le_dec a z) as [A|A].
    + exists z. split; [exact Z1|]. intros y [<-|Y]; [exact A|apply Z2, Y].
    + pose proof (H a (or_introl eq_refl)) as X. exists ((a + x) / 2)%Q. assert (E : ((a + x) / 2 == (1 # 2) * a + (1 # 2) * x)%Q) by field. split; [lra|].
      intros y [<-|Y]; [lra|]. specialize (Z2 y Y). lra.
Qed.
Lemma above (L : list Q) : exists z, forall y, In y L -> (y < z)%Q.
Proof.
  induction L as [|a L (z & H)]; [exists 0%Q; intros y []|]. destruct (Qlt_le_dec a z) as [A|A].
  - exists z. intros y [<-|Y]; auto.
  - exists (a + 1)%Q. intros y [<-|Y]; [lra|]. specialize (H y Y). lra.
Qed.
Lemma acyclic_rank (heads : Z -> list Z) (all : list Z) : (forall i j, In j (heads i) -> In i all) ->
  (forall i, ~ clos_trans Z (fun i j => In j (heads i)) i i) -> exists R : Z -> nat, forall i j, In j (heads i) -> (R j < R i)%nat.
Proof.
  intros IA NC. pose proof (ParserIdle.acyclic_wf Z.eq_dec _ all IA NC) as WF.
  set (lmax := fun l : list nat => fold_right Nat.max O l).
  assert (LM : forall l x, In x l -> (x <= lmax l)%nat). { induction l as [|y l IH]; intros x []; cbn; [subst; lia|]. specialize (IH x H). unfold lmax in *. lia. }
  set (rk := fix rk (n : nat) (i : Z) : nat := match n with O => O | S n' => lmax (map (fun j => S (rk n' j)) (heads i)) end).
  assert (ST : forall i, exists k, forall n, (k <= n)%nat -> rk n i = rk k i).
  { intros i. induction (WF i) as [i _ IH].
    assert (X : exists k, forall j, In j (heads i) -> forall n, (k <= n)%nat -> rk n j = rk k j).
    { revert IH. generalize (heads i). induction l as [|j l IL]; intros IH; [exists O; intros j []|]. destruct IL as (k & K); [intros j' J; apply IH; right; exact J|].
      destruct (IH j (or_introl eq_refl)) as (k' & K'). exists (k + k')%nat. intros j' [<-|J] n N.
      - rewrite (K' n), (K' (k + k')%nat) by lia. reflexivity.
      - rewrite (K j' J n), (K j' J (k + k')%nat) by lia. reflexivity. }
    destruct X as (k & K). exists (S k). intros n N. destruct n as [|n]; [lia|]. cbn [rk]. f_equal. apply map_ext_in. intros j J. rewrite (K j J n) by lia. reflexivity. }
  assert (AL : exists k, forall i, In i all -> forall n, (k <= n)%nat -> rk n i = rk k i).
  { induction all as [|i l IL]; [exists O; intros i []|].
    assert (X : exists k, forall i, In i l -> forall n, (k <= n)%nat -> rk n i = rk k i).
    { clear IL IA. induction l as [|j l IL]; [exists O; intros j []|]. destruct IL as (k & K). destruct (ST j) as (k' & K'). exists (k + k')%nat. intros x [<-|J] n N.
      - rewrite (K' n), (K' (k + k')%nat) by lia. reflexivity.
      - rewrite (K x J n), (K x J (k + k')%nat) by lia. reflexivity. }
    destruct X as (k & K). destruct (ST i) as (k' & K'). exists (k + k')%nat. intros x [<-|J] n N.
    - rewrite (K' n), (K' (k + k')%nat) by lia. reflexivity.
    - rewrite (K x J n), (K x J (k + k')%nat) by lia. reflexivity. }
  destruct AL as (k & K). exists (rk k). intros i j J. rewrite <- (K i (IA i j J) (S k)) by lia. cbn [rk].
  assert (X : (S (rk k j) <= lmax (map (fun j => S (rk k j)) (heads i)))%nat); [|lia]. apply LM, (in_map (fun j => S (rk k j))), J.
Qed.

(** ** What may be empty, what may stand first *)
Section E.
Variable defs : list (option chunk).
Variable e : Z -> bool.
Hypothesis EX : forall i, e i = true <-> produces defs (CNode i) [].
Fixpoint voidB (c : chunk) : bool :=
  match c with
  | CTok _ | CEoi => false
  | CNode i => e i
  | CGroup opt _ l => opt || forallb voidB l
  | CVar l => existsb voidB l
  end.
Fixpoint headsOf (c : chunk) : list Z :=
  match c with
  | CTok _ | CEoi => []
  | CNode i => [i]
  | CGroup _ _ l =>
      (fix go (l : list chunk) : list Z := match l with [] => [] | c :: l' => headsOf c ++ (if voidB c then go l' else []) end) l
  | CVar l => flat_map headsOf l
  end.
Fixpoint headsSeq (l : list chunk) : list Z := match l with [] => [] | c :: l' => headsOf c ++ (if voidB c then headsSeq l' else []) end.
Lemma heads_group opt rep l : headsOf (CGroup opt rep l) = headsSeq l.
Proof. cbn [headsOf]. induction l as [|c l IH]; [reflexivity|]. cbn [headsSeq]. rewrite IH. reflexivity. Qed.
Notation anyStart := (fun _ _ : Z => True).

Lemma void_produces c : voidB c = true -> produces defs c [].
Proof.
  induction c as [t| |i|opt rep l IH|l IH] using chunk_nest; intros H; try discriminate.
  - apply EX, H.
  - cbn [voidB] in H. destruct opt; [apply P_never|]. cbn [orb] in H. apply P_once. induction l as [|c l IL]; [constructor|]. cbn [forallb] in H. apply andb_true_iff in H as [H1 H2].
    change (@nil Z) with (@nil Z ++ []). constructor; [apply IH; [left; reflexivity|exact H1]|]. apply IL; [intros c' C; apply IH; right; exact C|exact H2].
  - cbn [voidB] in H. apply existsb_exists in H as (c & C & H). eapply P_variant; [exact C|apply IH; assumption].
Qed.
Lemma voids_produce l : forallb voidB l = true -> producesSeq defs l [].
Proof.
  induction l as [|c l IL]; intros H; [constructor|]. cbn [forallb] in H. apply andb_true_iff in H as [H1 H2].
  change (@nil Z) with (@nil Z ++ []). constructor; [apply void_produces, H1|apply IL, H2].
Qed.
Lemma optional_void c : isOptional c = true -> voidB c = true.
Proof.
  induction c as [t| |i|opt rep l IH|l IH] using chunk_nest; intros H; try discriminate.
  - cbn [voidB isOptional] in *. destruct opt; [reflexivity|]. cbn [orb] in *. rewrite forallb_forall in *. auto.
  - cbn [voidB isOptional] in *. apply existsb_exists in H as (c & C & H). apply existsb_exists. exists c. auto.
Qed.
Lemma void_derives c : voidB c = true -> exists v, derives anyStart c v /\ Forall (emptyNode defs) v.
Proof.
  induction c as [t| |i|opt rep l IH|l IH] using chunk_nest; intros H; try discriminate.
  - exists [SNode i 0]. split; [constructor; exact I|]. constructor; [|constructor]. exists i, 0. split; [reflexivity|apply EX, H].
  - cbn [voidB] in H. destruct opt; [exists []; split; [apply D_never|constructor]|]. cbn [orb] in H.
    assert (X : exists v, derivesSeq anyStart l v /\ Forall (emptyNode defs) v).
    { induction l as [|c l IL]; [exists []; split; constructor|]. cbn [forallb] in H. apply andb_true_iff in H as [H1 H2].
      destruct (IH c (or_introl eq_refl) H1) as (v & D & F). destruct (IL (fun c' C => IH c' (or_intror C)) H2) as (v' & D' & F').
      exists (v ++ v'). split; [constructor; assumption|apply Forall_app; auto]. }
    destruct X as (v & D & F). exists v. split; [apply D_once, D|exact F].
  - cbn [voidB] in H. apply existsb_exists in H as (c & C & H). destruct (IH c C H) as (v & D & F). exists v. split; [eapply D_variant; eassumption|exact F].
Qed.
Lemma heads_corner c : written c -> forall i, In i (headsOf c) -> exists v u w, derives anyStart c (v ++ SNode i u :: w) /\ Forall (emptyNode defs) v.
Proof.
  induction c as [t| |i|opt rep l IH|l IH] using chunk_nest; intros W j J; try (destruct J; fail).
  - destruct J as [<-|[]]. exists [], 0, []. split; [constructor; exact I|constructor].
  - inversion W as [| | | |? ? ? NE RO WL]; subst. rewrite heads_group in J.
    assert (X : exists v u w, derivesSeq anyStart l (v ++ SNode j u :: w) /\ Forall (emptyNode defs) v).
    { clear NE RO W. induction l as [|c l IL]; [destruct J|]. cbn [headsSeq] in J. apply in_app_or in J as [J|J].
      - destruct (IH c (or_introl eq_refl) (WL c (or_introl eq_refl)) j J) as (v & u & w & D & F).
        destruct (derivesSeq_some anyStart (fun i => ex_intro _ 0 I) l (fun c' C => WL c' (or_intror C))) as (w' & D').
        exists v, u, (w ++ w'). split; [|exact F]. change (v ++ SNode j u :: w ++ w') with (v ++ (SNode j u :: w) ++ w'). rewrite app_assoc. constructor; assumption.
      - destruct (voidB c) eqn:V; [|destruct J]. destruct (void_derives c V) as (v0 & D0 & F0).
        destruct IL as (v & u & w & D & F); [intros c' C; apply IH; right; exact C|exact J|intros c' C; apply WL; right; exact C|].
        exists (v0 ++ v), u, w. split; [rewrite <- app_assoc; constructor; assumption|apply Forall_app; auto]. }
    destruct X as (v & u & w & D & F). exists v, u, w. split; [apply D_once, D|exact F].
  - inversion W as [| | |? NE WL|]; subst. cbn [headsOf] in J. apply in_flat_map in J as (c & C & J). destruct (IH c C (WL c C) j J) as (v & u & w & D & F).
    exists v, u, w. split; [eapply D_variant; eassumption|exact F].
Qed.

(** ** Ranks *)
Variable firsts : list (list Z).
Variable R : Z -> Q.
(** a state has a number, and it may be at the end of a node *)
Definition value : Type := Q * bool.
Definition step (x y : value) : Prop := (fst y < fst x)%Q /\ (snd y = true -> snd x = true).
Lemma step_trans x y z : step x y -> step y z -> step x z.
Proof. intros (A & B) (C & D). split; [lra|auto]. Qed.
Definition ranking := Z -> value.
Definition fits (den : ranking) (q : Z) (r : rule) : Prop :=
  if rNode r =? SameNode then rToken r = AnyToken -> step (den q) (den (rState r))
  else (R (rNode r) < fst (den q))%Q /\ (e (rNode r) = true -> step (den q) (den (rState r))).
Definition good (den : ranking) (p : pres) (q : Z) (r : rule) : Prop := rState r < zlen (sts p) /\ (rNode r = SameNode -> rToken r <> EoiToken) /\ fits den q r.
Definition adds (den : ranking) (p p' : pres) : Prop := forall q r, has p' q r -> has p q r \/ good den p' q r.
Definition agree (den den' : ranking) (p : pres) : Prop := forall q, q < zlen (sts p) -> den q = den' q.
Definition req (den : ranking) (c : chunk) (s n : Z) : Prop :=
  (voidB c = true -> step (den s) (den n)) /\ (forall i, In i (headsOf c) -> (R i < fst (den s))%Q).

Lemma good_agree den den' p p' q r : agree den den' p -> zlen (sts p) <= zlen (sts p') -> q < zlen (sts p) -> good den p q r -> good den' p' q r.
Proof.
  intros A Z Q0 (T & N & C). split; [lia|]. split; [exact N|]. unfold fits in *. rewrite <- (A q Q0), <- (A (rState r) T). exact C.
Qed.
Lemma adds_trans den den' p p' p'' : adds den p p' -> agree den den' p' -> zlen (sts p') <= zlen (sts p'') -> adds den' p' p'' -> adds den' p p''.
Proof.
  intros A AG Z B q r X. apply B in X. destruct X as [X|X]; [|auto]. pose proof (has_live _ _ _ X) as LV. apply A in X. destruct X as [X|X]; [auto|].
  right. eapply good_agree; [exact AG|exact Z| |exact X]. unfold live in LV. lia.
Qed.
Lemma adds_refl den p : adds den p p.
Proof. intros q r X. auto. Qed.
Definition memberI (c : chunk) : Prop := forall s n p p' den, buildStates firsts c s n p = Some p' -> okP p -> live p s -> n < zlen (sts p) ->
  req den c s n -> exists den', agree den den' p /\ adds den' p p'.

Lemma addRule_adds den i st nt : forall ks p p', okP p -> addRule p i st nt ks = Some p' -> st < zlen (sts p) ->
  (forall k, In k ks -> (nt = SameNode -> k <> EoiToken) /\ fits den i (mkRule k st nt)) -> adds den p p'.
Proof.
  induction ks as [|k ks IH]; intros p p' O H Q0 C; cbn [addRule] in H.
  - injection H as <-. apply adds_refl.
  - ob H. rename x into p1. destruct (addRule1_spec _ _ _ _ _ _ O H0) as (L & F & O1 & S).
    assert (Z1 : zlen (sts p1) = zlen (sts p)) by apply F.
    eapply (adds_trans den den p p1 p'); [|intros q _; reflexivity| |].
    + intros q r X. destruct (Z.eq_dec q i) as [->|NE]; [|left; apply (has_onlyAt _ _ _ _ _ F NE), X].
      apply S in X. destruct X as [->|[X _]]; [|auto]. right. split; [cbn [rState]; lia|]. apply C. left. reflexivity.
    + destruct (addRule_keeps _ _ _ _ _ _ H) as (_ & ->). lia.
    + apply (IH _ _ O1 H); [lia|]. intros k' K. apply C. right. exact K.
Qed.

Fixpoint reqs (den : ranking) (tail : Z) (l : list chunk) (states : list Z) : Prop :=
  match l, states with
  | c :: l', s :: ss => req den c s (hd tail ss) /\ reqs den tail l' ss
  | _, _ => True
  end.
Lemma req_same den den' c s n : den s = den' s -> den n = den' n -> req den c s n -> req den' c s n.
Proof. intros A B Q0. unfold req in *. rewrite <- A, <- B. exact Q0. Qed.
Lemma reqs_agree den den' p tail l : forall states, agree den den' p -> (forall x, In x states -> live p x) -> tail < zlen (sts p) -> reqs den tail l states -> reqs den' tail l states.
Proof.
  induction l as [|c l IH]; intros states A LV TL Q0; [exact I|]. destruct states as [|s ss]; [exact I|]. cbn [reqs] in *. split.
  - eapply req_same; [apply A|apply A|apply Q0].
    + specialize (LV s (or_introl eq_refl)). unfold live in LV. lia.
    + apply hd_lt; [|exact TL]. intros x X. specialize (LV x (or_intror X)). unfold live in LV. lia.
  - apply IH; [exact A|intros x X; apply LV; right; exact X|exact TL|apply Q0].
Qed.
Lemma seq_adds l : (forall c, In c l -> written c) -> (forall c, In c l -> memberI c) -> forall states tail p p' den,
  buildSeq firsts l states tail p = Some p' -> okP p -> (forall x, In x states -> live p x) -> tail < zlen (sts p) -> reqs den tail l states ->
  exists den', agree den den' p /\ adds den' p p' /\ zlen (sts p) <= zlen (sts p') /\ okP p'.
Proof.
  induction l as [|c l IH]; intros W M states tail p p' den H O LV TL Q0.
  - cbn in H. injection H as <-. exists den. split; [intros q _; reflexivity|]. split; [apply adds_refl|]. split; [lia|exact O].
  - destruct states as [|s ss]; [discriminate H|]. cbn [buildSeq] in H. ob H. rename x into pm. cbn [reqs] in Q0. destruct Q0 as (R1 & R2).
    pose proof (W c (or_introl eq_refl)) as Wc. pose proof (build_zlen _ _ _ _ _ _ Wc H0) as Z1.
    assert (HL : hd tail ss < zlen (sts p)). { apply hd_lt; [|exact TL]. intros x X. specialize (LV x (or_intror X)). unfold live in LV. lia. }
    destruct (M c (or_introl eq_refl) s (hd tail ss) p pm den H0 O (LV s (or_introl eq_refl)) HL R1) as (den1 & A1 & AD1).
    assert (O1 : okP pm) by (eapply build_ok; eassumption).
    destruct (IH (fun c' C => W c' (or_intror C)) (fun c' C => M c' (or_intror C)) ss tail pm p' den1 H O1) as (den2 & A2 & AD2 & Z2 & O2).
    + intros x X. specialize (LV x (or_intror X)). unfold live in *. lia.
    + lia.
    + eapply reqs_agree; [exact A1| |exact TL|exact R2]. intros x X. apply LV. right. exact X.
    + exists den2. split; [intros q Q0; rewrite (A1 q Q0); apply A2; lia|]. split; [|split; [lia|exact O2]].
      eapply adds_trans; [exact AD1|exact A2|exact Z2|exact AD2].
Qed.

Lemma fits_copy den s s' r : step (den s) (den s') -> fits den s' r -> fits den s r.
Proof.
  intros S F. unfold fits in *. destruct (rNode r =? SameNode); [intros T; eapply step_trans; [exact S|apply F, T]|].
  destruct F as (A & B). destruct S as (S1 & S2). split; [lra|]. intros V. eapply step_trans; [split; eassumption|apply B, V].
Qed.
Lemma copyBack_adds den tail l : forall states p p', copyBack l states p = Some p' -> okP p -> length l = length states -> NoDup states -> reqs den tail l states ->
  (forall s r, In s (tl states) -> has p s r -> good den p s r) -> adds den p p' /\ zlen (sts p') = zlen (sts p) /\ okP p'.
Proof.
  induction l as [|c l IH]; intros states p p' H O LE ND Q0 G.
  - cbn in H. injection H as <-. split; [apply adds_refl|auto].
  - destruct l as [|c' l]; [cbn in H; injection H as <-; split; [apply adds_refl|auto]|].
    destruct states as [|s [|s' states]]; try discriminate.
    change (copyBack (c :: c' :: l) (s :: s' :: states) p) with
      (do p <- copyBack (c' :: l) (s' :: states) p; if isOptional c then copyRules p s s' else Some p) in H.
    ob H. rename x into p1. inversion ND as [|? ? N1 N2]; subst. cbn [reqs hd] in Q0. destruct Q0 as (R1 & R2).
    destruct (IH (s' :: states) p p1 H0 O) as (AD & Z1 & O1); [cbn in *; lia|exact N2|exact R2| |].
    { cbn [tl] in *. intros q r Q0. apply G. right. exact Q0. }
    destruct (isOptional c) eqn:OC; [|injection H as <-; auto].
    destruct (copyRules_spec _ _ _ _ O1 H) as (L & L' & FO & O' & S). assert (Z2 : zlen (sts p') = zlen (sts p1)) by apply FO.
    split; [|split; [lia|exact O']].
    eapply (adds_trans den den p p1 p'); [exact AD|intros q _; reflexivity|lia|].
    intros q r X. destruct (Z.eq_dec q s) as [->|NE]; [|left; apply (has_onlyAt _ _ _ _ _ FO NE), X].
    apply S in X. destruct X as [X|[X _]]; [|auto]. right.
    assert (GR : good den p1 s' r).
    { apply AD in X. destruct X as [X|X]; [|exact X]. apply (good_agree den den p p1); [intros z _; reflexivity|lia| |].
      - pose proof (has_live _ _ _ X) as LV. unfold live in LV. lia.
      - apply G; [left; reflexivity|exact X]. }
    destruct GR as (T & N & C). split; [lia|]. split; [exact N|]. eapply fits_copy; [|exact C]. apply R1, optional_void, OC.
Qed.

(** *** Ranks of the states of a group *)
Lemma seq_rank tail : forall l s rest (den : ranking), l <> [] -> length rest = (length l - 1)%nat -> NoDup (s :: rest) -> ~ In tail rest ->
  (forallb voidB l = true -> step (den s) (den tail)) -> (forall i, In i (headsSeq l) -> (R i < fst (den s))%Q) ->
  exists den1 : ranking, (forall q, ~ In q rest -> den1 q = den q) /\ reqs den1 tail l (s :: rest).
Proof.
  induction l as [|c l IH]; intros s rest den NE LE ND NT VD HD; [contradiction|]. destruct l as [|c' l].
  - destruct rest; [|discriminate]. exists den. split; [reflexivity|]. cbn [reqs hd]. split; [|exact I]. split.
    + intros V. apply VD. cbn [forallb]. rewrite V. reflexivity.
    + intros i J. apply HD. cbn [headsSeq]. apply in_app_iff. auto.
  - destruct rest as [|s1 rest]; [discriminate|]. set (l1 := c' :: l) in *. apply NoDup_cons_iff in ND. destruct ND as (N1 & N2).
    assert (V1 : exists v : value, (voidB c = true -> step (den s) v) /\ (forallb voidB l1 = true -> step v (den tail)) /\ (forall i, In i (headsSeq l1) -> (R i < fst v)%Q)).
    { destruct (voidB c) eqn:VC.
      - destruct (below ((if forallb voidB l1 then [fst (den tail)] else []) ++ map R (headsSeq l1)) (fst (den s))) as (z & Z1 & Z2).
        { intros y Y. apply in_app_or in Y as [Y|Y].
          - destruct (forallb voidB l1) eqn:VL; [|destruct Y]. destruct Y as [<-|[]]. apply VD. cbn [forallb]. fold l1. rewrite VC. exact VL.
          - apply in_map_iff in Y as (i & <- & Y). apply HD. cbn [headsSeq]. fold l1. rewrite VC. apply in_app_iff. auto. }
        exists (z, if forallb voidB l1 then snd (den tail) else false). split; [|split].
        + intros _. split; [exact Z1|]. cbn [snd]. destruct (forallb voidB l1) eqn:VL; [|discriminate]. apply VD. cbn [forallb]. fold l1. rewrite VC. exact VL.
        + intros VL. rewrite VL in *. split; [|auto]. cbn [fst]. apply Z2. left. reflexivity.
        + intros i J. cbn [fst]. apply Z2, in_app_iff. right. apply in_map, J.
      - destruct (above (fst (den tail) :: map R (headsSeq l1))) as (z & Z2). exists (z, snd (den tail)). split; [discriminate|]. split.
        + intros _. split; [apply Z2; left; reflexivity|auto].
        + intros i J. apply Z2. right. apply in_map, J. }
    destruct V1 as (v & V1 & V2 & V3). set (den' := fun q => if q =? s1 then v else den q).
    assert (D1 : den' s1 = v) by (unfold den'; rewrite Z.eqb_refl; reflexivity).
    assert (DO : forall q, q <> s1 -> den' q = den q). { intros q N. unfold den'. destruct (Z.eqb_spec q s1); [contradiction|reflexivity]. }
    destruct (IH s1 rest den') as (den1 & A1 & Q1).
    + discriminate.
    + cbn [length] in *. lia.
    + exact N2.
    + intros C. apply NT. right. exact C.
    + rewrite D1, DO; [exact V2|]. intros ->. apply NT. left. reflexivity.
    + rewrite D1. exact V3.
    + exists den1. split.
      * intros q N. rewrite A1 by (intros C; apply N; right; exact C). apply DO. intros ->. apply N. left. reflexivity.
      * assert (ES : den1 s = den s). { rewrite A1 by (intros C; apply N1; right; exact C). apply DO. intros ->. apply N1. left. reflexivity. }
        assert (E1 : den1 s1 = v). { rewrite A1; [exact D1|]. inversion N2; assumption. }
        cbn [reqs hd]. split; [|exact Q1]. unfold req. rewrite ES, E1. split; [exact V1|]. intros i J. apply HD. cbn [headsSeq]. apply in_app_iff. auto.
Qed.

Lemma group_idle opt rep l : (forall c, In c l -> written c) -> (forall c, In c l -> memberI c) -> l <> [] -> (rep = true -> forallb voidB l = false) -> memberI (CGroup opt rep l).
Proof.
  intros W M NE LR s n p p' den H O LV NL (RQ1 & RQ2). rewrite heads_group in RQ2.
  destruct (group_parts _ _ _ _ _ _ _ _ LV H) as (first & rest & p1 & p2 & p3 & p4 & ls & G).
  destruct G as [gp_len0 gp_first0 gp_rest0 gp_nodup0 gp_zlen0 gp_old0 gp_new0 gp_seq0 gp_last0 gp_copy0 gp_extra0 gp_cells0].
  pose proof (zlen_nonneg (sts p)) as ZP.
  assert (LVS : forall x, In x (first :: rest) -> live p1 x).
  { intros x X. unfold live in *. destruct X as [<-|X]; [|specialize (gp_rest0 x X); lia].
    destruct gp_first0 as [(-> & _)|(Q0 & _)]; lia. }
  set (tail := if rep then s else n) in *.
  assert (TL : tail < zlen (sts p)) by (unfold tail, live in *; destruct rep; lia).
  assert (O1 : okP p1) by (eapply grown_ok; eassumption).
  assert (NT : ~ In tail rest) by (intros C; specialize (gp_rest0 _ C); lia).
  assert (LE : length l = length (first :: rest)). { cbn [length]. rewrite gp_len0. destruct l; [contradiction|cbn; lia]. }
  assert (P1 : forall q r, has p1 q r -> has p q r).
  { intros q r (e0 & GE & Y). pose proof (zget_Some_inv _ _ _ GE) as Q0. destruct (Z.lt_ge_cases q (zlen (sts p))) as [LT|GE'].
    - rewrite gp_old0 in GE by exact LT. exists e0. auto.
    - rewrite gp_new0 in GE by lia. injection GE as <-. destruct Y. }
  set (den0 := fun q => if q =? first then den s else den q).
  assert (A0 : agree den den0 p). { intros q Q0. unfold den0. destruct (Z.eqb_spec q first) as [->|]; [|reflexivity]. destruct gp_first0 as [(-> & _)|(X & _)]; [reflexivity|lia]. }
  assert (DF0 : den0 first = den s) by (unfold den0; rewrite Z.eqb_refl; reflexivity).
  destruct (seq_rank tail l first rest den0 NE gp_len0 gp_nodup0 NT) as (den1 & A1 & R1).
  { intros V. rewrite DF0. destruct rep; [rewrite (LR eq_refl) in V; discriminate|]. unfold tail in *. rewrite <- (A0 n NL). apply RQ1. cbn [voidB]. rewrite V. apply orb_true_r. }
  { rewrite DF0. exact RQ2. }
  assert (AG1 : agree den den1 p). { intros q Q0. rewrite (A0 q Q0). symmetry. apply A1. intros C. specialize (gp_rest0 _ C). lia. }
  assert (DF1 : den1 first = den s). { rewrite A1; [exact DF0|]. inversion gp_nodup0; assumption. }
  destruct (seq_adds l W M (first :: rest) tail p1 p2 den1 gp_seq0 O1 LVS ltac:(lia) R1) as (den2 & AG2 & AD2 & Z2 & O2).
  assert (R2 : reqs den2 tail l (first :: rest)) by (eapply reqs_agree; [exact AG2|exact LVS|lia|exact R1]).
  assert (AGP : agree den den2 p). { intros q Q0. rewrite (AG1 q Q0). apply AG2. lia. }
  exists den2. split; [exact AGP|].
  destruct gp_last0 as (lc & l0 & st0 & EL & ES & LEN & BP).
  assert (S3 : adds den2 p2 p3 /\ zlen (sts p3) = zlen (sts p2) /\ okP p3).
  { destruct (isOptional lc) eqn:OC; [|injection BP as <-; split; [apply adds_refl|auto]].
    unfold bypassRule in BP. destruct (addRule_one _ _ _ _ _ _ O2 BP) as (_ & (Z & _) & O3 & _). split; [|auto].
    eapply addRule_adds; [exact O2|exact BP|lia|]. intros k [<-|[]]. split; [intros _ X; discriminate X|]. unfold fits. cbn [rState rNode rToken]. rewrite Z.eqb_refl. intros _.
    assert (RL : req den2 lc ls tail).
    { clear - R2 EL ES LEN. revert st0 l ES EL R2 LEN. generalize (first :: rest) as states. induction l0 as [|c l0 IH]; intros states st0 l ES EL R2 LEN.
      - destruct st0; [|discriminate]. cbn [app] in *. subst. apply R2.
      - destruct st0 as [|x st0]; [discriminate|]. cbn [app] in *. subst. cbn [reqs] in R2. destruct R2 as (_ & R2). eapply (IH _ st0); eauto. }
    apply RL, optional_void, OC. }
  destruct S3 as (AD3 & Z3 & O3).
  assert (AD13 : adds den2 p1 p3). { eapply adds_trans; [exact AD2|intros q _; reflexivity|lia|exact AD3]. }
  assert (NEWGOOD : forall x r, zlen (sts p) <= x -> has p3 x r -> good den2 p3 x r).
  { intros x r X Y. apply AD13 in Y. destruct Y as [Y|Y]; [|exact Y]. apply P1 in Y. apply has_live in Y. unfold live in Y. lia. }
  destruct (copyBack_adds den2 tail l (first :: rest) p3 p4 gp_copy0 O3 LE gp_nodup0 R2) as (AD4 & Z4 & O4).
  { cbn [tl]. intros x r X Y. apply NEWGOOD; [|exact Y]. specialize (gp_rest0 x X). lia. }
  assert (AD14 : adds den2 p1 p4). { eapply adds_trans; [exact AD13|intros q _; reflexivity|lia|exact AD4]. }
  assert (AD04 : adds den2 p p4). { intros q r X. apply AD14 in X. destruct X as [X|X]; auto. }
  destruct gp_first0 as [(EF & NX)|(FN & NX)]; rewrite NX in gp_extra0.
  - injection gp_extra0 as <-. exact AD04.
  - destruct (copyRules_spec _ _ _ _ O4 gp_extra0) as (L & L' & FO & O' & S). assert (Z5 : zlen (sts p') = zlen (sts p4)) by apply FO.
    eapply (adds_trans den2 den2 p p4 p'); [exact AD04|intros q _; reflexivity|lia|].
    intros q r X. destruct (Z.eq_dec q s) as [->|NEQ]; [|left; apply (has_onlyAt _ _ _ _ _ FO NEQ), X].
    apply S in X. destruct X as [X|[X _]]; [|auto]. right. apply AD04 in X. destruct X as [X|(T & N & C)].
    + apply has_live in X. unfold live in X. lia.
    + split; [lia|]. split; [exact N|]. unfold fits in *. rewrite <- (AGP s) by (unfold live in LV; lia). rewrite <- DF1, (AG2 first) by lia. exact C.
Qed.

Theorem build_idle c : written c -> endless c = true -> loopsRead defs c -> memberI c.
Proof.
  induction c as [t| |i|opt rep l IH|l IH] using chunk_nest; intros W EN LR.
  - intros s n p p' den H O LV NL (RQ & _). inversion W; subst. exists den. split; [intros q _; reflexivity|].
    cbn [buildStates] in H. eapply addRule_adds; [exact O|exact H|exact NL|]. intros k [<-|[]]. split; [unfold EoiToken; lia|]. unfold fits. cbn [rNode rToken]. rewrite Z.eqb_refl. unfold AnyToken. lia.
  - discriminate EN.
  - intros s n p p' den H O LV NL (RQ1 & RQ2). inversion W; subst. exists den. split; [intros q _; reflexivity|].
    cbn [buildStates] in H. eapply addRule_adds; [exact O|exact H|exact NL|]. intros k K. split; [unfold SameNode; lia|]. unfold fits. cbn [rNode rToken rState].
    destruct (Z.eqb_spec i SameNode); [unfold SameNode in *; lia|]. split; [apply RQ2; left; reflexivity|exact RQ1].
  - inversion W as [| | | |? ? ? NE RO WL]; subst. cbn [endless] in EN. rewrite forallb_forall in EN. apply group_idle; auto.
    + intros c C. apply IH; [exact C|apply WL, C|apply EN, C|]. intros o l' WI. apply (LR o l'). econstructor; eassumption.
    + intros ->. destruct (forallb voidB l) eqn:V; [|reflexivity]. exfalso. apply (LR opt l); [constructor|apply voids_produce, V].
  - inversion W as [| | |? NE WL|]; subst. cbn [endless] in EN. rewrite forallb_forall in EN.
    intros s n p p' den H O LV NL (RQ1 & RQ2). rewrite buildStates_var in H.
    assert (RQ' : forall c, In c l -> req den c s n).
    { intros c C. split; [intros V; apply RQ1; cbn [voidB]; apply existsb_exists; eauto|]. intros i J. apply RQ2. cbn [headsOf]. apply in_flat_map. eauto. }
    assert (LR' : forall c, In c l -> loopsRead defs c) by (intros c C o l' WI; apply (LR o l'); econstructor; eassumption).
    clear RQ1 RQ2 W NE LR. revert p den H O LV NL RQ'. induction l as [|c l IL]; intros p den H O LV NL RQ'; cbn [buildVar] in H.
    + injection H as <-. exists den. split; [intros q _; reflexivity|apply adds_refl].
    + ob H. rename x into pm. pose proof (WL c (or_introl eq_refl)) as Wc. pose proof (build_zlen _ _ _ _ _ _ Wc H0) as Z1.
      destruct (IH c (or_introl eq_refl) Wc (EN c (or_introl eq_refl)) (LR' c (or_introl eq_refl)) s n p pm den H0 O LV NL (RQ' c (or_introl eq_refl))) as (den1 & A1 & AD1).
      destruct (IL (fun c' C => IH c' (or_intror C)) (fun c' C => EN c' (or_intror C)) (fun c' C => WL c' (or_intror C)) (fun c' C => LR' c' (or_intror C)) pm den1 H) as (den2 & A2 & AD2).
      * eapply build_ok; eassumption.
      * unfold live in *. lia.
      * lia.
      * intros c' C. eapply req_same; [apply A1|apply A1, NL|apply RQ'; right; exact C]. unfold live in LV. lia.
      * exists den2. split; [intros q Q0; rewrite (A1 q Q0); apply A2; lia|].
        eapply adds_trans; [exact AD1|exact A2| |exact AD2].
        assert (WL' : forall c, In c l -> written c) by (intros; apply WL; right; assumption). clear - H WL'. revert pm H.
        induction l as [|c1 l IL]; intros pm H; cbn [buildVar] in H; [injection H as <-; lia|]. ob H.
        pose proof (build_zlen _ _ _ _ _ _ (WL' c1 (or_introl eq_refl)) H0) as Z1. specialize (IL (fun c0 C => WL' c0 (or_intror C)) x H). lia.
Qed.

(** ** Nodes *)
Lemma nodes_idle ds : forall k, (forall i d, nth_error ds i = Some d -> written d /\ endless d = true /\ loopsRead defs d /\
    (voidB d = true -> e (k + Z.of_nat i) = true) /\ forall j, In j (headsOf d) -> (R j < R (k + Z.of_nat i)%Z)%Q) ->
  (forall i, (0 <= R i)%Q) -> forall p fs p' (den : ranking), buildNodes firsts ds p = Some (fs, p') -> okP p -> den FinalState = ((- (1))%Q, true) ->
  exists den', agree den den' p /\ adds den' p p' /\ zlen (sts p) <= zlen (sts p') /\
    forall i f, nth_error fs i = Some f -> den' f = (R (k + Z.of_nat i), e (k + Z.of_nat i)).
Proof.
  induction ds as [|d ds IH]; intros k W RP p fs p' den H O DF; cbn [buildNodes] in H.
  - injection H as <- <-. exists den. split; [intros q _; reflexivity|]. split; [apply adds_refl|]. split; [lia|]. intros [|i]; discriminate.
  - destruct (addState p) as (f, p1) eqn:A. ob H. rename x into p2. ob H. destruct x as (fs', p3). injection H as <- <-.
    destruct (W 0%nat d eq_refl) as (Wd & Ed & Ld & Vd & Hd). pose proof (addState_ok _ _ _ O A) as O1. apply addState_spec in A. destruct A as (-> & A2 & A3 & A4 & _).
    pose proof (zlen_nonneg (sts p)) as ZP.
    set (den1 := fun q => if q =? zlen (sts p) then (R (k + Z.of_nat 0), e (k + Z.of_nat 0)) else den q).
    assert (A1 : agree den den1 p). { intros q Q0. unfold den1. destruct (Z.eqb_spec q (zlen (sts p))); [lia|reflexivity]. }
    assert (E1 : den1 (zlen (sts p)) = (R (k + Z.of_nat 0), e (k + Z.of_nat 0))) by (unfold den1; rewrite Z.eqb_refl; reflexivity).
    assert (LV : live p1 (zlen (sts p))) by (unfold live; lia).
    assert (DF1 : den1 FinalState = ((- (1))%Q, true)). { rewrite <- (A1 FinalState) by (unfold FinalState; lia). exact DF. }
    destruct (build_idle d Wd Ed Ld (zlen (sts p)) FinalState p1 p2 den1 H0 O1 LV ltac:(unfold FinalState; lia)) as (den2 & AG2 & AD2).
    { split.
      - intros V. rewrite E1, DF1. split; [|intros _; apply Vd, V]. cbn [fst]. specialize (RP (k + Z.of_nat 0)). lra.
      - intros j J. rewrite E1. apply Hd, J. }
    pose proof (build_zlen _ _ _ _ _ _ Wd H0) as Z2.
    destruct (IH (k + 1)) with (p := p2) (fs := fs') (p' := p3) (den := den2) as (den3 & AG3 & AD3 & Z3 & N3).
    + intros i d' D. specialize (W (S i) d' D). replace (k + 1 + Z.of_nat i) with (k + Z.of_nat (S i)) by lia. exact W.
    + exact RP.
    + exact H1.
    + eapply build_ok; eassumption.
    + rewrite <- (AG2 FinalState) by (unfold FinalState; lia). exact DF1.
    + exists den3. split; [intros q Q0; rewrite (A1 q Q0), (AG2 q), (AG3 q) by lia; reflexivity|]. split; [|split; [lia|]].
      * assert (ADa : adds den2 p p2).
        { intros q r X. apply AD2 in X. destruct X as [(e0 & G & Y)|X]; [|auto]. destruct (Z.eq_dec q (zlen (sts p))) as [->|NEQ].
          - rewrite A4 in G. injection G as <-. destruct Y.
          - rewrite A3 in G by exact NEQ. left. exists e0. auto. }
        eapply adds_trans; [exact ADa|exact AG3|exact Z3|exact AD3].
      * intros i f FF. destruct i as [|i].
        { injection FF as <-. rewrite <- (AG3 (zlen (sts p))) by lia. rewrite <- (AG2 (zlen (sts p))) by lia. exact E1. }
        { replace (k + Z.of_nat (S i)) with (k + 1 + Z.of_nat i) by lia. apply N3, FF. }
Qed.
End E.
