(** States made for LL(1) definitions: what the rules of a state are for, step by step. *)
From Coq Require Import ZArith List Bool Lia.
From Verif Require Import Base BaseProofs Grammar LangBuild LangSpec LangProofs LangFrame LangComplete LangSound LangShare LangNodesSpec LangLLSpec LangLL.
Import ListNotations.
Open Scope Z_scope.

(** ** One rule per token *)
Definition singles (m : list (Z * list rule)) : Prop := forall k rs, In (k, rs) m -> (length rs <= 1)%nat.
Lemma singles_append k rs m : NoDup (map fst m) -> singles m -> (length rs <= 1)%nat -> ~ In k (map fst m) -> singles (appendRules k rs m).
Proof.
  intros N S L NI k' rs' X. apply appendRules_In in X; [|exact N]. destruct X as [[= -> ->]|[X _]]; [|eapply S, X].
  apply mget_None in NI. rewrite NI. exact L.
Qed.
Lemma appendRules_keys k rs m k' : NoDup (map fst m) -> In k' (map fst (appendRules k rs m)) -> k' = k \/ In k' (map fst m).
Proof. intros N X. apply in_map_iff in X as ((k0, r0) & <- & X). apply appendRules_In in X; [|exact N]. destruct X as [[= -> _]|[X _]]; [auto|]. right. apply (in_map fst) in X. exact X. Qed.
Lemma singles_appends fs : forall m, NoDup (map fst m) -> NoDup (map fst fs) -> singles m -> singles fs -> (forall k, In k (map fst fs) -> ~ In k (map fst m)) ->
  singles (fold_left (fun m '(k, rs) => appendRules k rs m) fs m).
Proof.
  induction fs as [|(k, rs) fs IH]; intros m N F S SF D; cbn [fold_left]; [exact S|]. cbn [map fst] in F. inversion F as [|? ? F1 F2]; subst.
  apply IH.
  - apply appendRules_nodup, N.
  - exact F2.
  - apply singles_append; [exact N|exact S|apply (SF k rs); left; reflexivity|apply D; left; reflexivity].
  - intros k' rs' X. apply (SF k' rs'). right. exact X.
  - intros k' X C. apply appendRules_keys in C; [|exact N]. destruct C as [->|C]; [contradiction|]. apply (D k'); [right; exact X|exact C].
Qed.
Lemma key_rule e k : entryOk e -> In k (map fst (ePos e)) -> exists r, In r (posRules (ePos e)) /\ rToken r = k.
Proof.
  intros O X. apply in_map_iff in X as ((k0, rs) & <- & X). destruct (eo_posKey e O _ _ X) as (_ & NE & T). destruct rs as [|r rs]; [contradiction|].
  exists r. split; [apply posRules_In; exists k0, (r :: rs); split; [exact X|left; reflexivity]|apply T; left; reflexivity].
Qed.

Lemma addRule1_neg p i st nt k p' e' : addRule1 p i st nt k = Some p' -> k < 0 -> zget (sts p') i = Some e' -> exists e, zget (sts p) i = Some e /\ ePos e' = ePos e.
Proof.
  intros H N G. unfold addRule1 in H. ob H. rename x into e. match goal with X : zget _ i = Some e |- _ => rename X into GE end. exists e. split; [exact GE|].
  destruct (Z.leb_spec 0 k); [lia|]. ob H. injection H as <-. match goal with X : setState _ _ _ = Some _ |- _ => apply setState_inv in X as (_ & _ & X & _); cbn [prStates] in *; rewrite X in G end. injection G as <-. reflexivity.
Qed.

Section Build.
Variable defs : list (option chunk).
Variable clash : Z -> Z -> Prop.
Hypothesis CR : forall k, clash k k.
Hypothesis CS : forall k k', clash k k' -> clash k' k.
Notation B := (begins defs).
Notation Bs l := (begins defs (sequence l)).
Notation anyStart := (fun _ _ : Z => True).
Notation apart := (apart clash).
Notation decided := (decided defs clash).
Notation decidedSeq := (decidedSeq defs clash).
Notation follows := (follows defs).
Notation nextOf := (nextOf defs).
Notation none := (fun _ : Z => False).

(** ** Tokens that may come next in a state *)
Definition tokenSets := Z -> Z -> Prop.
(** the states of the machine of a node begin here *)
Variable lo : Z.
Definition fits (den : tokenSets) (q : Z) (r : rule) : Prop :=
  if rToken r =? AnyToken then rNode r = SameNode /\ sub (den (rState r)) (den q)
  else 0 <= rToken r /\ den q (rToken r) /\ (rNode r <> SameNode -> sub (den (rState r)) (follows (rNode r))).
Definition good (den : tokenSets) (p : pres) (q : Z) (r : rule) : Prop := (rState r = FinalState \/ lo <= rState r) /\ rState r < zlen (sts p) /\ fits den q r.
Definition adds (den : tokenSets) (p p' : pres) : Prop := forall q r, has p' q r -> has p q r \/ good den p' q r.
Definition agree (den den' : tokenSets) (p : pres) : Prop := forall q, q < zlen (sts p) -> den q = den' q.

Lemma good_agree den den' p p' q r : agree den den' p -> zlen (sts p) <= zlen (sts p') -> q < zlen (sts p) -> good den p q r -> good den' p' q r.
Proof.
  intros A Z Q0 (L & T & C). split; [exact L|]. split; [lia|]. unfold fits in *. rewrite <- (A q Q0), <- (A (rState r) T). exact C.
Qed.
Lemma adds_trans den den' p p' p'' : adds den p p' -> agree den den' p' -> zlen (sts p') <= zlen (sts p'') -> adds den' p' p'' -> adds den' p p''.
Proof.
  intros A AG Z Q q r X. apply Q in X. destruct X as [X|X]; [|auto]. pose proof (has_live _ _ _ X) as LV. apply A in X. destruct X as [X|X]; [auto|].
  right. eapply good_agree; [exact AG|exact Z| |exact X]. unfold live in LV. lia.
Qed.
Lemma adds_refl den p : adds den p p.
Proof. intros q r X. auto. Qed.
Lemma addRule_adds den i st nt : forall ks p p', okP p -> addRule p i st nt ks = Some p' -> (st = FinalState \/ lo <= st) -> st < zlen (sts p) ->
  (forall k, In k ks -> fits den i (mkRule k st nt)) -> adds den p p'.
Proof.
  induction ks as [|k ks IH]; intros p p' O H L0 Q C; cbn [addRule] in H.
  - injection H as <-. apply adds_refl.
  - ob H. rename x into p1. destruct (addRule1_spec _ _ _ _ _ _ O H0) as (L & F & O1 & S).
    assert (Z1 : zlen (sts p1) = zlen (sts p)) by apply F.
    eapply (adds_trans den den p p1 p'); [|intros q _; reflexivity| |].
    + intros q r X. destruct (Z.eq_dec q i) as [->|NE]; [|left; apply (has_onlyAt _ _ _ _ _ F NE), X].
      apply S in X. destruct X as [->|[X _]]; [|auto]. right. split; [exact L0|]. split; [cbn [rState]; lia|apply C; left; reflexivity].
    + destruct (addRule_keeps _ _ _ _ _ _ H) as (_ & ->). lia.
    + apply (IH _ _ O1 H L0); [lia|]. intros k' K. apply C. right. exact K.
Qed.

(** The rules of the state [s] read tokens of [K] only, one rule for a token; what may come after something skipped is in [T], and is not among
    the tokens read. *)
Record bounded (den : tokenSets) (p : pres) (s : Z) (K T : Z -> Prop) : Prop := mkBounded {
  bd_kind : forall r, has p s r -> rToken r = AnyToken \/ 0 <= rToken r /\ K (rToken r);
  bd_skip : forall r, has p s r -> rToken r = AnyToken -> sub (den (rState r)) T;
  bd_one : forall r r', has p s r -> has p s r' -> rToken r <> AnyToken -> rToken r' <> AnyToken -> clash (rToken r) (rToken r') -> r = r';
  bd_apart : forall r r' k, has p s r -> has p s r' -> rToken r = AnyToken -> rToken r' <> AnyToken -> den (rState r) k -> ~ clash k (rToken r');
  bd_target : forall r, has p s r -> rState r < zlen (sts p);
  bd_single : forall e, zget (sts p) s = Some e -> singles (ePos e)
}.
Definition clear (den : tokenSets) (p : pres) (s : Z) : Prop := bounded den p s (fun _ => True) (fun _ => True).

Lemma bounded_mono den p s K T K' T' : bounded den p s K T -> sub K K' -> sub T T' -> bounded den p s K' T'.
Proof.
  intros [H1 H2 H3 H4 H5 H6] SK ST. split; auto.
  - intros r X. destruct (H1 r X) as [E|(P & Q)]; [auto|]. right. split; [exact P|apply SK, Q].
  - intros r X E k D. apply ST, (H2 r X E k D).
Qed.
Lemma bounded_clear den p s K T : bounded den p s K T -> clear den p s.
Proof. intros H. eapply bounded_mono; [exact H| |]; intros k _; exact I. Qed.
Lemma has_same p p' s r : zget (sts p') s = zget (sts p) s -> has p' s r <-> has p s r.
Proof. intros E. unfold has, hasRule. rewrite E. reflexivity. Qed.
Lemma bounded_same den den' p p' s K T : bounded den p s K T -> zget (sts p') s = zget (sts p) s -> zlen (sts p) <= zlen (sts p') -> agree den den' p -> bounded den' p' s K T.
Proof.
  intros [H1 H2 H3 H4 H5 H6] E Z AG. pose proof (fun r => proj1 (has_same p p' s r E)) as HS. split.
  - intros r X. apply H1, HS, X.
  - intros r X E0. rewrite <- (AG (rState r)) by (apply H5, HS, X). apply H2; auto.
  - intros r r' X X'. apply H3; auto.
  - intros r r' k X X' E0 N. rewrite <- (AG (rState r)) by (apply H5, HS, X). apply H4; auto.
  - intros r X. specialize (H5 r (HS r X)). lia.
  - intros e G. apply H6. rewrite <- E. exact G.
Qed.
Lemma bounded_fresh den p s : zget (sts p) s = Some (mkEntry 0 [] []) -> bounded den p s none none.
Proof.
  intros G. assert (X : forall r, ~ has p s r). { intros r (e & G' & I). rewrite G in G'. injection G' as <-. destruct I. }
  split.
  - intros r H. destruct (X r H).
  - intros r H. destruct (X r H).
  - intros r r' H. destruct (X r H).
  - intros r r' k H. destruct (X r H).
  - intros r H. destruct (X r H).
  - intros e G'. rewrite G in G'. injection G' as <-. intros k rs [].
Qed.

Lemma bounded_read den p p' s K T st nt k : okP p -> bounded den p s K T -> addRule1 p s st nt k = Some p' -> 0 <= k -> st < zlen (sts p) ->
  apart K (eq k) -> apart T (eq k) -> bounded den p' s (fun x => K x \/ x = k) T.
Proof.
  intros O [H1 H2 H3 H4 H5 H6] A P TG AK AT. destruct (addRule1_spec _ _ _ _ _ _ O A) as (L & F & O1 & S).
  assert (HS : forall r, has p' s r -> r = mkRule k st nt \/ has p s r). { intros r X. apply S in X. destruct X as [X|(X & _)]; auto. }
  assert (NK : forall r, has p s r -> rToken r <> AnyToken -> ~ clash (rToken r) k). { intros r X N. destruct (H1 r X) as [E|(_ & Q)]; [contradiction|]. apply (AK _ _ Q eq_refl). }
  assert (KA : k <> AnyToken) by (unfold AnyToken; lia).
  split.
  - intros r X. destruct (HS r X) as [->|X']; [right; auto|]. destruct (H1 r X') as [E|(P' & Q)]; auto.
  - intros r X E. destruct (HS r X) as [->|X']; [contradiction|]. apply H2; assumption.
  - intros r r' X X' N N' CL. destruct (HS r X) as [->|Y]; destruct (HS r' X') as [->|Y']; auto.
    + destruct (NK r' Y' N'). apply CS, CL.
    + destruct (NK r Y N). exact CL.
  - intros r r' k' X X' E N D. destruct (HS r X) as [->|Y]; [contradiction|]. destruct (HS r' X') as [->|Y']; [|apply (H4 r r' k'); assumption].
    cbn [rToken]. apply (AT k' k); [apply (H2 r Y E), D|reflexivity].
  - intros r X. assert (Z : zlen (sts p') = zlen (sts p)) by apply F. rewrite Z. destruct (HS r X) as [->|Y]; [exact TG|apply H5, Y].
  - intros e' G'. unfold addRule1 in A. ob A. rename x into e. match goal with X : zget (sts p) s = Some e |- _ => rename X into G end. destruct (Z.leb_spec 0 k); [|lia].
    destruct (setState_inv _ _ _ _ A) as (_ & _ & GE & _). rewrite GE in G'. injection G' as <-. cbn [ePos]. pose proof (O _ _ G) as OE.
    apply singles_append; [apply (eo_pos _ OE)|apply H6, G|cbn; lia|]. intros C. apply (key_rule e k OE) in C as (r & I & E).
    assert (X : has p s r) by (apply (has_at _ _ r _ G); auto). apply (NK r X); [rewrite E; exact KA|rewrite E; apply CR].
Qed.
Lemma bounded_reads den st nt s : forall ks p p' K T, okP p -> bounded den p s K T -> addRule p s st nt ks = Some p' -> st < zlen (sts p) ->
  NoDup ks -> (forall k, In k ks -> 0 <= k) -> (forall k k', In k ks -> In k' ks -> clash k k' -> k = k') ->
  apart K (fun k => In k ks) -> apart T (fun k => In k ks) -> bounded den p' s (fun x => K x \/ In x ks) T.
Proof.
  induction ks as [|k ks IH]; intros p p' K T O BD H TG ND PS ON AK AT; cbn [addRule] in H.
  - injection H as <-. eapply bounded_mono; [exact BD| |]; intros x X; auto.
  - ob H. rename x into p1. destruct (addRule1_spec _ _ _ _ _ _ O H0) as (L & F & O1 & S). assert (Z1 : zlen (sts p1) = zlen (sts p)) by apply F. inversion ND as [|? ? N1 N2]; subst.
    assert (BD1 : bounded den p1 s (fun x => K x \/ x = k) T).
    { eapply bounded_read; [exact O|exact BD|exact H0|apply PS; left; reflexivity|exact TG| |].
      - intros x y X <-. apply AK; [exact X|left; reflexivity].
      - intros x y X <-. apply AT; [exact X|left; reflexivity]. }
    eapply bounded_mono; [eapply (IH p1 p' _ T O1 BD1 H)| |].
    + lia.
    + exact N2.
    + intros x X. apply PS. right. exact X.
    + intros x y X Y. apply ON; right; assumption.
    + intros x y [X| ->] Y.
      * apply AK; [exact X|right; exact Y].
      * intros C. pose proof (ON k y (or_introl eq_refl) (or_intror Y) C). subst y. contradiction.
    + intros x y X Y. apply AT; [exact X|right; exact Y].
    + intros x [[X|X]|X]; [auto|right; left; congruence|right; right; exact X].
    + intros x X. exact X.
Qed.
Lemma bounded_bypass den p p' s K T tail : okP p -> bounded den p s K T -> bypassRule p s tail = Some p' -> tail < zlen (sts p) ->
  apart K (den tail) -> bounded den p' s K (fun x => T x \/ den tail x).
Proof.
  intros O [H1 H2 H3 H4 H5 H6] A TG AK. unfold bypassRule in A. pose proof A as A0. destruct (addRule_one _ _ _ _ _ _ O A) as (L & F & O1 & S).
  assert (HS : forall r, has p' s r -> r = mkRule AnyToken tail SameNode \/ has p s r). { intros r X. apply S in X. destruct X as [X|(X & _)]; auto. }
  split.
  - intros r X. destruct (HS r X) as [->|X']; [left; reflexivity|]. apply H1, X'.
  - intros r X E. destruct (HS r X) as [->|X']; [intros k D; right; exact D|]. intros k D. left. apply (H2 r X' E k D).
  - intros r r' X X' N N'. destruct (HS r X) as [->|Y]; [destruct (N eq_refl)|]. destruct (HS r' X') as [->|Y']; [destruct (N' eq_refl)|]. apply H3; assumption.
  - intros r r' k X X' E N D. destruct (HS r' X') as [->|Y']; [destruct (N eq_refl)|]. destruct (HS r X) as [->|Y]; [|apply (H4 r r' k); assumption].
    cbn [rState] in D. destruct (H1 r' Y') as [E'|(_ & Q)]; [contradiction|]. intros C. apply (AK _ _ Q D), CS, C.
  - intros r X. assert (Z : zlen (sts p') = zlen (sts p)) by apply F. rewrite Z. destruct (HS r X) as [->|Y]; [exact TG|apply H5, Y].
  - intros e' G'. cbn [addRule] in A0. destruct (addRule1 p s tail SameNode AnyToken) as [p0|] eqn:A1; [|discriminate A0]. cbn [obind] in A0. injection A0 as <-.
    destruct (addRule1_neg _ _ _ _ _ _ _ A1 ltac:(reflexivity) G') as (e & G & ->). apply H6, G.
Qed.
Lemma bounded_copy den p p' s s' K T K' T' : okP p -> bounded den p s K T -> bounded den p s' K' T' -> copyRules p s s' = Some p' ->
  apart K K' -> apart K T' -> apart T K' -> bounded den p' s (fun x => K x \/ K' x) (fun x => T x \/ T' x).
Proof.
  intros O [H1 H2 H3 H4 H5 H6] [J1 J2 J3 J4 J5 J6] A AKK AKT ATK. destruct (copyRules_spec _ _ _ _ O A) as (L & L' & F & O1 & S).
  assert (HS : forall r, has p' s r -> has p s' r \/ has p s r). { intros r X. apply S in X. destruct X as [X|(X & _)]; auto. }
  assert (KR : forall r, has p s r -> rToken r <> AnyToken -> K (rToken r)) by (intros r X N; destruct (H1 r X) as [E|(_ & Q)]; [contradiction|exact Q]).
  assert (KR' : forall r, has p s' r -> rToken r <> AnyToken -> K' (rToken r)) by (intros r X N; destruct (J1 r X) as [E|(_ & Q)]; [contradiction|exact Q]).
  split.
  - intros r X. destruct (HS r X) as [Y|Y]; [destruct (J1 r Y) as [E|(P & Q)]|destruct (H1 r Y) as [E|(P & Q)]]; auto.
  - intros r X E k D. destruct (HS r X) as [Y|Y]; [right; apply (J2 r Y E k D)|left; apply (H2 r Y E k D)].
  - intros r r' X X' N N' CL. destruct (HS r X) as [Y|Y]; destruct (HS r' X') as [Y'|Y'].
    + apply J3; assumption.
    + destruct (AKK _ _ (KR r' Y' N') (KR' r Y N)). apply CS, CL.
    + destruct (AKK _ _ (KR r Y N) (KR' r' Y' N') CL).
    + apply H3; assumption.
  - intros r r' k X X' E N D. destruct (HS r X) as [Y|Y]; destruct (HS r' X') as [Y'|Y'].
    + apply (J4 r r' k); assumption.
    + intros C. apply (AKT _ _ (KR r' Y' N) (J2 r Y E k D)), CS, C.
    + apply (ATK _ _ (H2 r Y E k D) (KR' r' Y' N)).
    + apply (H4 r r' k); assumption.
  - intros r X. assert (Z : zlen (sts p') = zlen (sts p)) by apply F. rewrite Z. destruct (HS r X) as [Y|Y]; [apply J5, Y|apply H5, Y].
  - intros e' G'. unfold copyRules in A. ob A. rename x into f. match goal with X : zget _ s' = Some f |- _ => rename X into Gf end. ob A. rename x into e. match goal with X : zget _ s = Some e |- _ => rename X into Ge end.
    destruct (setState_inv _ _ _ _ A) as (_ & _ & GE & _). rewrite GE in G'. injection G' as <-. cbn [ePos]. pose proof (O _ _ Gf) as Of. pose proof (O _ _ Ge) as Oe.
    apply singles_appends; [apply (eo_pos _ Oe)|apply (eo_pos _ Of)|apply H6, Ge|apply J6, Gf|]. intros k X C.
    apply (key_rule f k Of) in X as (r' & I' & E'). apply (key_rule e k Oe) in C as (r & I & E).
    assert (X' : has p s' r') by (apply (has_at _ _ r' _ Gf); auto). assert (X : has p s r) by (apply (has_at _ _ r _ Ge); auto).
    pose proof (pos_sign _ _ Of I') as P'. pose proof (pos_sign _ _ Oe I) as P.
    apply (AKK (rToken r) (rToken r')); [apply KR; [exact X|unfold AnyToken; lia]|apply KR'; [exact X'|unfold AnyToken; lia]|]. rewrite E, E'. apply CR.
Qed.

(** ** What follows nested nodes *)
(** in strings of [c], with [N] after [c] *)
Definition flow (c : chunk) (N : Z -> Prop) : Prop :=
  forall v i u w, stringOf c (v ++ SNode i u :: w) -> match w with [] => sub N (follows i) | x :: _ => sub (opens defs x) (follows i) end.
Lemma flow_mono c N N' : flow c N -> sub N' N -> flow c N'.
Proof. intros F S v i u w D. specialize (F v i u w D). destruct w; [|exact F]. intros k K. apply F, S, K. Qed.
Lemma flow_cons c l N : written c -> (forall c', In c' l -> written c') -> flow (sequence (c :: l)) N -> flow c (nextOf l N) /\ flow (sequence l) N.
Proof.
  intros W WL F.
  assert (CAT : forall w w', stringOf c w -> stringOf (sequence l) w' -> stringOf (sequence (c :: l)) (w ++ w')).
  { intros w w' D D'. apply seq_strings. apply seq_strings in D'. constructor; assumption. }
  split.
  - intros v i u w D. destruct w as [|x w].
    + intros k [(x & w & DX & OX)|(OM & K)].
      * specialize (F v i u (x :: w)). apply F; [|exact OX]. specialize (CAT _ _ D DX). rewrite <- app_assoc in CAT. exact CAT.
      * specialize (F v i u []). apply F; [|exact K]. apply omits_iff in OM; [|exact WL]. specialize (CAT _ _ D OM). rewrite app_nil_r in CAT. exact CAT.
    + destruct (somes l WL) as (w' & DW). apply seq_strings in DW. specialize (F v i u (x :: w ++ w')). apply F. specialize (CAT _ _ D DW). rewrite <- app_assoc in CAT. exact CAT.
  - intros v i u w D. destruct (some c W) as (v0 & D0). apply (F (v0 ++ v) i u w). rewrite <- app_assoc. apply CAT; assumption.
Qed.
Lemma flow_group opt rep l N : flow (CGroup opt rep l) N -> flow (sequence l) (fun k => N k \/ rep = true /\ Bs l k).
Proof.
  intros F v i u w D. apply seq_strings in D. destruct w as [|x w].
  - intros k [K|(-> & x & w & DX & OX)].
    + apply (F v i u []); [apply D_once, D|exact K].
    + apply (F v i u (x :: w)); [|exact OX]. change (v ++ SNode i u :: x :: w) with (v ++ [SNode i u] ++ x :: w). rewrite app_assoc.
      apply D_again; [exact D|]. apply seq_strings in DX. apply D_once, DX.
  - apply (F v i u (x :: w)). apply D_once, D.
Qed.
Lemma flow_var l N c : flow (CVar l) N -> In c l -> flow c N.
Proof. intros F C v i u w D. apply (F v i u w). eapply D_variant; eassumption. Qed.

(** ** Requirements *)
Variable firsts : list (list Z).
Hypothesis FI : forall i, 0 <= i < zlen defs -> NoDup (firstsOf firsts i) /\ forall k, In k (firstsOf firsts i) -> firstToken defs i k /\ 0 <= k.
Hypothesis ONE : forall i k k', firstToken defs i k -> firstToken defs i k' -> clash k k' -> k = k'.

Definition req (den : tokenSets) (c : chunk) (s n : Z) : Prop :=
  lo <= s /\ (n = FinalState \/ lo <= n) /\ sub (B c) (den s) /\ (isOptional c = true -> sub (den n) (den s)) /\
  (beginsLoop c = true -> forall k, den s k -> B c k \/ isOptional c = true /\ den n k) /\ flow c (den n).
Record wf (c : chunk) : Prop := mkWf {
  wf_written : written c;
  wf_endless : endless c = true;
  wf_once : skipsOnce c = true;
  wf_loops : loopsApart c = true;
  wf_nodes : forall i, mentions c i -> 0 <= i < zlen defs
}.
Lemma wf_member_group opt rep l c : wf (CGroup opt rep l) -> In c l -> wf c.
Proof.
  intros [W E S L M] C. inversion W; subst. cbn [endless skipsOnce loopsApart] in *. apply andb_true_iff in S as (S & _). apply andb_true_iff in L as (L & _).
  rewrite forallb_forall in *. split; auto. intros i MI. apply M. econstructor; eassumption.
Qed.
Lemma wf_member_var l c : wf (CVar l) -> In c l -> wf c.
Proof.
  intros [W E S L M] C. inversion W; subst. cbn [endless skipsOnce loopsApart] in *. apply andb_true_iff in L as (L & _).
  rewrite forallb_forall in *. split; auto. intros i MI. apply M. econstructor; eassumption.
Qed.
Lemma once_seq opt rep l : skipsOnce (CGroup opt rep l) = true -> skipsOnceSeq l = true.
Proof.
  intros H. cbn [skipsOnce] in H. apply andb_true_iff in H as (_ & H). induction l as [|c l IH]; [reflexivity|]. cbn [skipsOnceSeq]. destruct l as [|c' l]; [reflexivity|].
  apply andb_true_iff in H as (H1 & H2). rewrite H1. apply IH, H2.
Qed.

Definition memberL (c : chunk) : Prop := forall (A K T : Z -> Prop) s n p p' den,
  buildStates firsts c s n p = Some p' -> okP p -> live p s -> n < zlen (sts p) ->
  decided A c -> sub (den n) A -> req den c s n -> bounded den p s K T ->
  apart K (B c) -> apart T (B c) -> (isOptional c = true -> apart K A) ->
  exists den', agree den den' p /\ adds den' p p' /\
    bounded den' p' s (fun k => K k \/ B c k) (fun k => T k \/ leaves c true = true /\ (B c k \/ isOptional c = true /\ A k)) /\
    (forall q, zlen (sts p) <= q < zlen (sts p') -> clear den' p' q).

Fixpoint reqs (den : tokenSets) (tail : Z) (l : list chunk) (states : list Z) : Prop :=
  match l, states with
  | c :: l', s :: ss => req den c s (hd tail ss) /\ reqs den tail l' ss
  | _, _ => True
  end.
Lemma req_agree den den' p c s n : agree den den' p -> s < zlen (sts p) -> n < zlen (sts p) -> req den c s n -> req den' c s n.
Proof. intros A S N R. unfold req in *. rewrite <- (A s S), <- (A n N). exact R. Qed.
Lemma reqs_agree den den' p tail l : forall states, agree den den' p -> (forall x, In x states -> live p x) -> tail < zlen (sts p) -> reqs den tail l states -> reqs den' tail l states.
Proof.
  induction l as [|c l IH]; intros states A LV TL R; [exact I|]. destruct states as [|s ss]; [exact I|]. cbn [reqs] in *. split.
  - eapply req_agree; [exact A| | |apply R].
    + specialize (LV s (or_introl eq_refl)). unfold live in LV. lia.
    + apply hd_lt; [|exact TL]. intros x X. specialize (LV x (or_intror X)). unfold live in LV. lia.
  - apply IH; [exact A|intros x X; apply LV; right; exact X|exact TL|apply R].
Qed.

(** states of a sequence before and after their parts are built *)
Section Parts.
Variables KK TT : Z -> Z -> Prop.
Variable A : Z -> Prop.
Fixpoint before (den : tokenSets) (p : pres) (l : list chunk) (states : list Z) : Prop :=
  match l, states with
  | c :: l', s :: ss => bounded den p s (KK s) (TT s) /\ apart (KK s) (B c) /\ apart (TT s) (B c) /\ (isOptional c = true -> apart (KK s) (nextOf l' A)) /\ before den p l' ss
  | _, _ => True
  end.
Fixpoint after (last : bool) (den : tokenSets) (p : pres) (l : list chunk) (states : list Z) : Prop :=
  match l, states with
  | c :: l', s :: ss =>
      bounded den p s (fun k => KK s k \/ B c k)
        (fun k => TT s k \/ (match l' with [] => leaves c true || isOptional c && last | _ => leaves c true end) = true /\ (B c k \/ isOptional c = true /\ nextOf l' A k)) /\
      after last den p l' ss
  | _, _ => True
  end.
Lemma before_same den den' p p' l : forall states, (forall s, In s states -> zget (sts p') s = zget (sts p) s) -> zlen (sts p) <= zlen (sts p') -> agree den den' p ->
  before den p l states -> before den' p' l states.
Proof.
  induction l as [|c l IH]; intros states E Z AG H; [exact I|]. destruct states as [|s ss]; [exact I|]. cbn [before] in *. destruct H as (H1 & H2 & H3 & H4 & H5).
  split; [|split; [exact H2|split; [exact H3|split; [exact H4|]]]].
  - eapply bounded_same; [exact H1|apply E; left; reflexivity|exact Z|exact AG].
  - apply IH; [intros x X; apply E; right; exact X|exact Z|exact AG|exact H5].
Qed.
(** what may come after a part, comes next in its state *)
Fixpoint chained (den : tokenSets) (tail : Z) (l : list chunk) (states : list Z) : Prop :=
  match l, states with
  | c :: l', s :: ss => sub (den (hd tail ss)) (nextOf l' A) /\ chained den tail l' ss
  | _, _ => True
  end.
Lemma chained_agree den den' p tail l : forall states, agree den den' p -> (forall x, In x states -> live p x) -> tail < zlen (sts p) -> chained den tail l states -> chained den' tail l states.
Proof.
  induction l as [|c l IH]; intros states AG LV TL R; [exact I|]. destruct states as [|s ss]; [exact I|]. cbn [chained] in *. split.
  - rewrite <- (AG (hd tail ss)); [apply R|]. apply hd_lt; [|exact TL]. intros x X. specialize (LV x (or_intror X)). unfold live in LV. lia.
  - apply IH; [exact AG|intros x X; apply LV; right; exact X|exact TL|apply R].
Qed.
Lemma seq_built l : (forall c, In c l -> written c) -> (forall c, In c l -> memberL c) -> forall states tail p p' den,
  buildSeq firsts l states tail p = Some p' -> okP p -> (forall x, In x states -> live p x) -> NoDup states -> tail < zlen (sts p) ->
  decidedSeq A l -> sub (den tail) A -> reqs den tail l states -> length l = length states -> chained den tail l states -> before den p l states ->
  exists den', agree den den' p /\ adds den' p p' /\ zlen (sts p) <= zlen (sts p') /\ okP p' /\ after false den' p' l states /\
    (forall q, zlen (sts p) <= q < zlen (sts p') -> clear den' p' q).
Proof.
  induction l as [|c l IH]; intros W M states tail p p' den H O LV ND TL DS ST R LE CH BF.
  - cbn in H. injection H as <-. exists den. split; [intros q _; reflexivity|]. split; [apply adds_refl|]. split; [lia|]. split; [exact O|]. split; [exact I|]. lia.
  - destruct states as [|s ss]; [discriminate H|]. cbn [buildSeq] in H. ob H. rename x into pm. cbn [reqs] in R. destruct R as (R1 & R2). cbn [before] in BF. destruct BF as (B1 & B2 & B3 & B4 & B5). cbn [chained] in CH. destruct CH as (CH1 & CH2).
    pose proof (W c (or_introl eq_refl)) as Wc. assert (WL : forall c', In c' l -> written c') by (intros c' C; apply W; right; exact C).
    pose proof (build_zlen _ _ _ _ _ _ Wc H0) as Z1. apply NoDup_cons_iff in ND as (N1 & N2).
    assert (HL : hd tail ss < zlen (sts p)). { apply hd_lt; [|exact TL]. intros x X. specialize (LV x (or_intror X)). unfold live in LV. lia. }
    assert (LVs : live p s) by (apply LV; left; reflexivity).
    pose proof (build_keeps firsts c Wc _ _ _ _ H0 LVs) as KP.
    inversion DS as [|? ? ? DC DL]; subst.
    assert (NE : forall k, nextOf l A k <-> Bs l k \/ mayOmit (sequence l) /\ A k) by (intros k; apply nextOf_iff, WL).
    destruct (M c (or_introl eq_refl) _ (KK s) (TT s) s (hd tail ss) p pm den H0 O LVs HL DC) as (den1 & A1 & AD1 & BD1 & CL1).
    { intros k K. apply NE, CH1, K. }
    { exact R1. } { exact B1. } { exact B2. } { exact B3. }
    { intros OC. specialize (B4 OC). intros k k' K K'. apply (B4 k k' K). apply NE, K'. }
    assert (O1 : okP pm) by (eapply build_ok; eassumption).
    assert (LV1 : forall x, In x ss -> live pm x). { intros x X. specialize (LV x (or_intror X)). unfold live in *. lia. }
    destruct (IH WL (fun c' C => M c' (or_intror C)) ss tail pm p' den1 H O1 LV1 N2 ltac:(lia) DL) as (den2 & A2 & AD2 & Z2 & O2 & AF2 & CL2).
    + rewrite <- (A1 tail TL). exact ST.
    + eapply reqs_agree; [exact A1| |exact TL|exact R2]. intros x X. apply LV. right. exact X.
    + cbn in LE. lia.
    + eapply chained_agree; [exact A1| |exact TL|exact CH2]. intros x X. apply LV. right. exact X.
    + eapply before_same; [|exact Z1|exact A1|exact B5]. intros x X. apply KP; [specialize (LV x (or_intror X)); unfold live in LV; lia|]. intros ->. contradiction.
    + destruct (seq_keeps firsts l WL _ _ _ _ H LV1) as (_ & KP2).
      exists den2. split; [intros q Q0; rewrite (A1 q Q0); apply A2; lia|]. split; [eapply adds_trans; [exact AD1|exact A2|exact Z2|exact AD2]|]. split; [lia|]. split; [exact O2|]. split.
      * cbn [after]. split; [|exact AF2]. eapply bounded_mono; [eapply bounded_same; [exact BD1| |exact Z2|exact A2]| |].
        -- apply KP2; [unfold live in LVs; lia|exact N1].
        -- intros k K. exact K.
        -- intros k [K|(L & K)]; [auto|]. right. split; [destruct l; [rewrite L; reflexivity|exact L]|]. destruct K as [K|(OC & K)]; [auto|]. right. split; [exact OC|]. apply NE, K.
      * intros q Q0. destruct (Z.lt_ge_cases q (zlen (sts pm))) as [LT|GE]; [|apply CL2; lia].
        eapply bounded_same; [apply CL1; lia| |exact Z2|exact A2]. apply KP2; [exact LT|]. intros X. specialize (LV q (or_intror X)). unfold live in LV. lia.
Qed.

Lemma after_same last den p p' l : forall states, (forall s, In s states -> zget (sts p') s = zget (sts p) s) -> zlen (sts p) <= zlen (sts p') ->
  after last den p l states -> after last den p' l states.
Proof.
  induction l as [|c l IH]; intros states E Z H; [exact I|]. destruct states as [|s ss]; [exact I|]. cbn [after] in *. destruct H as (H1 & H2). split.
  - eapply bounded_same; [exact H1|apply E; left; reflexivity|exact Z|intros q _; reflexivity].
  - apply IH; [intros x X; apply E; right; exact X|exact Z|exact H2].
Qed.
(** the last part may be skipped *)
Lemma after_bypass den p p' tail lc ls : forall l0 st0, length l0 = length st0 -> NoDup (st0 ++ [ls]) -> okP p -> tail < zlen (sts p) -> sub (den tail) A ->
  (forall c, In c (l0 ++ [lc]) -> written c) -> decidedSeq A (l0 ++ [lc]) -> apart (KK ls) (B lc) -> (isOptional lc = true -> apart (KK ls) A) ->
  (if isOptional lc then bypassRule p ls tail else Some p) = Some p' ->
  after false den p (l0 ++ [lc]) (st0 ++ [ls]) -> after true den p' (l0 ++ [lc]) (st0 ++ [ls]).
Proof.
  induction l0 as [|c l0 IH]; intros st0 LE ND O TL ST W DS AK AO H AF; destruct st0 as [|s st0]; try discriminate LE; cbn [app] in *.
  - cbn [after] in *. destruct AF as (AF & _). split; [|exact I]. destruct (isOptional lc) eqn:OC; [|injection H as <-; exact AF].
    pose proof (W lc (or_introl eq_refl)) as Wc. inversion DS as [|? ? ? DC _]; subst.
    assert (AP : apart (B lc) A).
    { eapply (apart_sub clash (B lc)); [intros k K; exact K| |apply (proj1 (omit_apart defs clash) _ _ DC Wc OC)].
      intros k K. right. split; [|exact K]. apply seq_strings. constructor. }
    eapply bounded_mono; [eapply bounded_bypass; [exact O|exact AF|exact H|exact TL|]| |].
    + intros k k' [K|K] K'; [apply (AO eq_refl k k' K), ST, K'|apply (AP k k' K), ST, K'].
    + intros k K. exact K.
    + intros k [[K|(L & K)]|K]; [auto| |].
      * right. split; [|exact K]. rewrite andb_false_r, orb_false_r in L. rewrite L. reflexivity.
      * right. rewrite orb_true_r. split; [reflexivity|]. right. split; [reflexivity|]. right. split; [reflexivity|apply ST, K].
  - apply NoDup_cons_iff in ND as (N1 & N2). cbn [after] in *. destruct AF as (AF1 & AF2). inversion DS as [|? ? ? DC DL]; subst. split.
    + assert (E : zget (sts p') s = zget (sts p) s /\ zlen (sts p) <= zlen (sts p')).
      { destruct (isOptional lc); [|injection H as <-; split; [reflexivity|lia]]. destruct (addRule_one _ _ _ _ _ _ O H) as (_ & (Z & F) & _).
        split; [apply F; intros ->; apply N1, in_app_iff; right; left; reflexivity|lia]. }
      eapply bounded_mono; [eapply bounded_same; [exact AF1|apply E|apply E|intros q _; reflexivity]| |].
      * intros k K. exact K.
      * intros k K. destruct (l0 ++ [lc]) eqn:EL; [destruct l0; discriminate EL|]. exact K.
    + apply IH; try assumption; [cbn in LE; lia|]. intros c' C. apply W. right. exact C.
Qed.

Lemma copyBack_built den l : forall states p p', l <> [] -> copyBack l states p = Some p' -> okP p -> length l = length states -> NoDup states ->
  (forall c, In c l -> written c) -> decidedSeq A l -> skipsOnceSeq l = true ->
  (forall x, In x (tl states) -> forall k, ~ KK x k /\ ~ TT x k) ->
  apart (KK (hd 0 states)) (Bs l) -> apart (TT (hd 0 states)) (Bs l) ->
  match l with c :: l' => isOptional c = true -> apart (KK (hd 0 states)) (nextOf l' A) | [] => True end ->
  after true den p l states ->
  zlen (sts p') = zlen (sts p) /\ okP p' /\
  bounded den p' (hd 0 states) (fun k => KK (hd 0 states) k \/ Bs l k) (fun k => TT (hd 0 states) k \/ leavesSeq l true = true /\ nextOf l A k) /\
  (forall x, In x (tl states) -> clear den p' x).
Proof.
  induction l as [|c l IH]; intros states p p' NE H O LE ND W DS SO NO AK AT AO AF; [contradiction|].
  assert (Wc : written c) by (apply W; left; reflexivity). assert (WL : forall c', In c' l -> written c') by (intros c' C; apply W; right; exact C).
  destruct l as [|c' l].
  - destruct states as [|s [|? ?]]; try discriminate. cbn in H. injection H as <-. cbn [after] in AF. destruct AF as (AF & _). cbn [hd tl leavesSeq] in *.
    split; [reflexivity|]. split; [exact O|]. split; [|intros x []]. eapply bounded_mono; [exact AF| |].
    + intros k [K|K]; [auto|]. right. apply B_cons; auto.
    + intros k [K|(L & K)]; [auto|]. right. split; [exact L|]. destruct K as [K|(OC & [K|(_ & K)])].
      * left. apply B_cons; auto.
      * destruct (B_nil _ _ K).
      * right. split; [cbn [forallb]; rewrite OC; reflexivity|exact K].
  - destruct states as [|s [|s' states]]; try discriminate.
    change (copyBack (c :: c' :: l) (s :: s' :: states) p) with
      (do p <- copyBack (c' :: l) (s' :: states) p; if isOptional c then copyRules p s s' else Some p) in H.
    ob H. rename x into p1. inversion ND as [|? ? N1 N2]; subst. inversion DS as [|? ? ? DC DL]; subst.
    change (skipsOnceSeq (c :: c' :: l)) with (negb (isOptional c && leaves c true) && skipsOnceSeq (c' :: l)) in SO. apply andb_true_iff in SO as (SO1 & SO2).
    change (leavesSeq (c :: c' :: l) true) with (leaves c true || (isOptional c && leavesSeq (c' :: l) true)).
    set (l1 := c' :: l) in *. cbn [after] in AF. fold l1 in AF. destruct AF as (AF1 & AF2). cbn [hd tl] in *.
    assert (N' : forall k, ~ KK s' k /\ ~ TT s' k) by (apply NO; left; reflexivity).
    destruct (IH (s' :: states) p p1 ltac:(discriminate) H0 O ltac:(cbn in *; lia) N2 WL DL SO2) as (Z1 & O1 & BD1 & CL1).
    { intros x X. apply NO. right. exact X. }
    { intros k k' K. destruct (N' k). contradiction. } { intros k k' K. destruct (N' k). contradiction. } { intros _ k k' K. destruct (N' k). contradiction. }
    { exact AF2. }
    cbn [hd tl] in *.
    destruct (copyBack_keeps _ _ _ _ H0) as (_ & KB).
    assert (ES : zget (sts p1) s = zget (sts p) s). { apply KB. intros C. apply N1. revert C. apply removelast_In. }
    assert (BD0 : bounded den p1 s (fun k => KK s k \/ B c k) (fun k => TT s k \/ leaves c true = true /\ (B c k \/ isOptional c = true /\ nextOf l1 A k))).
    { eapply bounded_same; [exact AF1|exact ES|lia|intros q _; reflexivity]. }
    assert (BL : sub (B c) (Bs (c :: l1))) by (intros k K; apply B_cons; auto).
    destruct (isOptional c) eqn:OC.
    + destruct (copyRules_spec _ _ _ _ O1 H) as (L & L' & FO & O' & S). assert (Z2 : zlen (sts p') = zlen (sts p1)) by apply FO.
      assert (LF : leaves c true = false) by (destruct (leaves c true); [discriminate SO1|reflexivity]).
      assert (AP : apart (B c) (nextOf l1 A)).
      { eapply (apart_sub clash (B c)); [intros k K; exact K| |apply (proj1 (omit_apart defs clash) _ _ DC Wc OC)]. intros k K. apply nextOf_iff; assumption. }
      assert (B1 : sub (Bs l1) (Bs (c :: l1))) by (intros k K; apply B_cons; auto).
      split; [lia|]. split; [exact O'|]. split.
      * eapply bounded_mono; [eapply (bounded_copy den p1 p' s s'); [exact O1|exact BD0|exact BD1|exact H| | |]| |].
        -- intros k k' [K|K] [K'|K']; try (destruct (N' k'); contradiction); [apply (AK k k' K), B1, K'|apply (AP k k' K); left; exact K'].
        -- intros k k' K [K'|(_ & K')]; [destruct (N' k'); contradiction|]. destruct K as [K|K]; [apply (AO eq_refl k k' K K')|apply (AP k k' K K')].
        -- intros k k' K [K'|K']; [destruct (N' k'); contradiction|]. destruct K as [K|(X & _)]; [apply (AT k k' K), B1, K'|congruence].
        -- intros k [[K|K]|[K|K]]; [auto|auto|destruct (N' k); contradiction|auto].
        -- intros k [[K|(X & _)]|[K|(X & K)]]; [auto|congruence|destruct (N' k); contradiction|]. right. rewrite LF, X. split; [reflexivity|].
           destruct K as [K|(X1 & K)]; [left; apply B1, K|right; split; [cbn [forallb]; rewrite OC; exact X1|exact K]].
      * intros x [<-|X].
        -- eapply bounded_clear, bounded_same; [exact BD1|apply FO; intros ->; apply N1; left; reflexivity|lia|intros q _; reflexivity].
        -- eapply bounded_same; [apply CL1, X|apply FO; intros ->; apply N1; right; exact X|lia|intros q _; reflexivity].
    + injection H as <-. split; [exact Z1|]. split; [exact O1|]. split.
      * eapply bounded_mono; [exact BD0| |].
        -- intros k [K|K]; auto.
        -- intros k [K|(L & [K|(X & _)])]; [auto| |discriminate]. right. rewrite L. split; [reflexivity|]. left. apply BL, K.
      * intros x [<-|X]; [eapply bounded_clear, BD1|apply CL1, X].
Qed.
End Parts.

Lemma fits_copy den s s' r : sub (den s') (den s) -> fits den s' r -> fits den s r.
Proof.
  intros S F. unfold fits in *. destruct (rToken r =? AnyToken).
  - destruct F as (N & F). split; [exact N|]. intros k K. apply S, F, K.
  - destruct F as (P & F & G). split; [exact P|]. split; [apply S, F|exact G].
Qed.
Lemma copyBack_adds den tail l : forall states p p', copyBack l states p = Some p' -> okP p -> length l = length states -> NoDup states -> reqs den tail l states ->
  (forall s r, In s (tl states) -> has p s r -> good den p s r) -> adds den p p'.
Proof.
  induction l as [|c l IH]; intros states p p' H O LE ND Q0 G.
  - cbn in H. injection H as <-. apply adds_refl.
  - destruct l as [|c' l]; [cbn in H; injection H as <-; apply adds_refl|].
    destruct states as [|s [|s' states]]; try discriminate.
    change (copyBack (c :: c' :: l) (s :: s' :: states) p) with
      (do p <- copyBack (c' :: l) (s' :: states) p; if isOptional c then copyRules p s s' else Some p) in H.
    ob H. rename x into p1. inversion ND as [|? ? N1 N2]; subst. cbn [reqs hd] in Q0. destruct Q0 as (R1 & R2).
    assert (AD : adds den p p1).
    { apply (IH (s' :: states) p p1 H0 O); [cbn in *; lia|exact N2|exact R2|]. cbn [tl] in *. intros q r Q0. apply G. right. exact Q0. }
    destruct (copyBack_keeps _ _ _ _ H0) as (Z1 & _).
    assert (O1 : okP p1). { clear - H0 O. revert H0. generalize (s' :: states) as st. generalize (c' :: l) as l1. intros l1. revert p p1 O. induction l1 as [|x l1 IL]; intros p p1 O st H; [cbn in H; injection H as <-; exact O|].
      destruct l1 as [|y l1]; [cbn in H; injection H as <-; exact O|]. destruct st as [|a [|b st]]; [cbn in H; injection H as <-; exact O|cbn in H; injection H as <-; exact O|].
      change (copyBack (x :: y :: l1) (a :: b :: st) p) with (do p <- copyBack (y :: l1) (b :: st) p; if isOptional x then copyRules p a b else Some p) in H.
      ob H. specialize (IL _ _ O _ H0). destruct (isOptional x); [|injection H as <-; exact IL]. apply (copyRules_spec _ _ _ _ IL H). }
    destruct (isOptional c) eqn:OC; [|injection H as <-; exact AD].
    destruct (copyRules_spec _ _ _ _ O1 H) as (L & L' & FO & O' & S). assert (Z2 : zlen (sts p') = zlen (sts p1)) by apply FO.
    eapply (adds_trans den den p p1 p'); [exact AD|intros q _; reflexivity|lia|].
    intros q r X. destruct (Z.eq_dec q s) as [->|NE]; [|left; apply (has_onlyAt _ _ _ _ _ FO NE), X].
    apply S in X. destruct X as [X|[X _]]; [|auto]. right.
    assert (GR : good den p1 s' r).
    { apply AD in X. destruct X as [X|X]; [|exact X]. apply (good_agree den den p p1); [intros z _; reflexivity|lia| |].
      - pose proof (has_live _ _ _ X) as LV. unfold live in LV. lia.
      - apply G; [left; reflexivity|exact X]. }
    destruct GR as (T & N & C). split; [exact T|]. split; [lia|]. eapply fits_copy; [|exact C]. apply R1, OC.
Qed.

(** *** States of a group *)
Fixpoint assign (l : list chunk) (states : list Z) (K : Z -> Prop) (den : tokenSets) : tokenSets :=
  match l, states with
  | c :: l', s :: ss => fun q => if q =? s then nextOf l K else assign l' ss K den q
  | _, _ => den
  end.
Lemma assign_other l : forall states K den q, ~ In q states -> assign l states K den q = den q.
Proof.
  induction l as [|c l IH]; intros states K den q N; [reflexivity|]. destruct states as [|s ss]; [reflexivity|]. cbn [assign].
  destruct (Z.eqb_spec q s) as [->|NE]; [contradiction N; left; reflexivity|]. apply IH. intros C. apply N. right. exact C.
Qed.
Lemma assign_head den tail l ss k : length l = length ss -> ~ In tail ss -> (assign l ss (den tail) den (hd tail ss) k <-> nextOf l (den tail) k).
Proof.
  intros LE NT. destruct l as [|c l]; destruct ss as [|s ss]; try discriminate.
  - cbn [assign hd]. unfold nextOf. split; [intros K; right; auto|]. intros [K|(_ & K)]; [destruct (B_nil _ _ K)|exact K].
  - cbn [assign hd]. rewrite Z.eqb_refl. reflexivity.
Qed.
Lemma nextOf_mono l (K K' : Z -> Prop) : sub K K' -> sub (nextOf l K) (nextOf l K').
Proof. intros S k [X|(X & Y)]; [left; exact X|right; auto]. Qed.
Lemma nextOf_cons c l K k : written c -> (forall c', In c' l -> written c') -> (nextOf (c :: l) K k <-> B c k \/ isOptional c = true /\ nextOf l K k).
Proof.
  intros W WL. unfold nextOf. cbn [forallb]. rewrite andb_true_iff. rewrite (B_cons defs c l k W WL). tauto.
Qed.
Lemma reqs_assign den tail l : forall states, (forall c, In c l -> written c) -> length l = length states -> NoDup states -> ~ In tail states ->
  (forall x, In x states -> lo <= x) -> (tail = FinalState \/ lo <= tail) -> flow (sequence l) (den tail) -> reqs (assign l states (den tail) den) tail l states.
Proof.
  induction l as [|c l IH]; intros states W LE ND NT LO LT FL; [exact I|]. destruct states as [|s ss]; [exact I|].
  assert (Wc : written c) by (apply W; left; reflexivity). assert (WL : forall c', In c' l -> written c') by (intros c' C; apply W; right; exact C).
  apply NoDup_cons_iff in ND as (N1 & N2). assert (NT' : ~ In tail ss) by (intros C; apply NT; right; exact C). assert (LE' : length l = length ss) by (cbn in LE; lia).
  destruct (flow_cons c l _ Wc WL FL) as (F1 & F2).
  specialize (IH ss WL LE' N2 NT' (fun x X => LO x (or_intror X)) LT F2).
  set (d1 := assign (c :: l) (s :: ss) (den tail) den).
  assert (E1 : forall q, q <> s -> d1 q = assign l ss (den tail) den q). { intros q N. unfold d1. cbn [assign]. destruct (Z.eqb_spec q s); [contradiction|reflexivity]. }
  assert (ES : d1 s = nextOf (c :: l) (den tail)). { unfold d1. cbn [assign]. rewrite Z.eqb_refl. reflexivity. }
  assert (HN : hd tail ss <> s). { destruct ss as [|x ss]; cbn [hd]; intros ->; [apply NT; left; reflexivity|apply N1; left; reflexivity]. }
  assert (EH : forall k, d1 (hd tail ss) k <-> nextOf l (den tail) k). { intros k. rewrite (E1 _ HN). apply assign_head; assumption. }
  cbn [reqs]. split.
  - split; [apply LO; left; reflexivity|]. split.
    { destruct ss as [|x ss]; cbn [hd]; [exact LT|right; apply LO; right; left; reflexivity]. }
    rewrite ES. split; [intros k K; apply nextOf_cons; auto|]. split.
    { intros OC k K. apply nextOf_cons; [exact Wc|exact WL|]. right. split; [exact OC|apply EH, K]. }
    split.
    { intros _ k K. apply nextOf_cons in K; [|exact Wc|exact WL]. destruct K as [K|(OC & K)]; [auto|]. right. split; [exact OC|apply EH, K]. }
    eapply flow_mono; [exact F1|]. intros k K. apply EH, K.
  - assert (X : forall l2 st, ~ In s st -> tail <> s -> reqs (assign l ss (den tail) den) tail l2 st -> reqs d1 tail l2 st).
    { clear - E1. induction l2 as [|x l2 IL]; intros st NI TS R; [exact I|]. destruct st as [|y st]; [exact I|]. cbn [reqs] in *. destruct R as (R1 & R2).
      split; [|apply IL; [intros C; apply NI; right; exact C|exact TS|exact R2]].
      assert (Y : y <> s) by (intros ->; apply NI; left; reflexivity). assert (HY : hd tail st <> s). { destruct st; cbn [hd]; [exact TS|]. intros ->. apply NI. right. left. reflexivity. }
      unfold req in *. rewrite (E1 y Y), (E1 _ HY). exact R1. }
    apply X; [exact N1| |exact IH]. intros ->. apply NT. left. reflexivity.
Qed.
Lemma chained_assign A den tail l : forall states, length l = length states -> NoDup states -> ~ In tail states -> sub (den tail) A -> chained A (assign l states (den tail) den) tail l states.
Proof.
  induction l as [|c l IH]; intros states LE ND NT S; [exact I|]. destruct states as [|s ss]; [exact I|].
  apply NoDup_cons_iff in ND as (N1 & N2). assert (NT' : ~ In tail ss) by (intros C; apply NT; right; exact C). assert (LE' : length l = length ss) by (cbn in LE; lia).
  specialize (IH ss LE' N2 NT' S). set (d1 := assign (c :: l) (s :: ss) (den tail) den).
  assert (E1 : forall q, q <> s -> d1 q = assign l ss (den tail) den q). { intros q N. unfold d1. cbn [assign]. destruct (Z.eqb_spec q s); [contradiction|reflexivity]. }
  assert (HN : hd tail ss <> s). { destruct ss as [|x ss]; cbn [hd]; intros ->; [apply NT; left; reflexivity|apply N1; left; reflexivity]. }
  cbn [chained]. split.
  - rewrite (E1 _ HN). intros k K. apply assign_head in K; [|exact LE'|exact NT']. eapply nextOf_mono; [exact S|exact K].
  - assert (X : forall l2 st, ~ In s st -> tail <> s -> chained A (assign l ss (den tail) den) tail l2 st -> chained A d1 tail l2 st).
    { clear - E1. induction l2 as [|x l2 IL]; intros st NI TS R; [exact I|]. destruct st as [|y st]; [exact I|]. cbn [chained] in *. destruct R as (R1 & R2).
      split; [|apply IL; [intros C; apply NI; right; exact C|exact TS|exact R2]].
      assert (HY : hd tail st <> s). { destruct st; cbn [hd]; [exact TS|]. intros ->. apply NI. right. left. reflexivity. }
      rewrite (E1 _ HY). exact R1. }
    apply X; [exact N1| |exact IH]. intros ->. apply NT. left. reflexivity.
Qed.

Lemma before_fresh KK TT A den p l : forall states, (forall x, In x states -> zget (sts p) x = Some (mkEntry 0 [] []) /\ forall k, ~ KK x k /\ ~ TT x k) -> before KK TT A den p l states.
Proof.
  induction l as [|c l IH]; intros states F; [exact I|]. destruct states as [|s ss]; [exact I|]. cbn [before]. destruct (F s (or_introl eq_refl)) as (G & N).
  split; [eapply bounded_mono; [apply bounded_fresh, G| |]; intros k []|]. split; [intros k k' K; destruct (N k); contradiction|]. split; [intros k k' K; destruct (N k); contradiction|].
  split; [intros _ k k' K; destruct (N k); contradiction|]. apply IH. intros x X. apply F. right. exact X.
Qed.
Lemma before_last KK TT A den p lc ls : forall l0 st0, length l0 = length st0 -> before KK TT A den p (l0 ++ [lc]) (st0 ++ [ls]) -> apart (KK ls) (B lc) /\ (isOptional lc = true -> apart (KK ls) A).
Proof.
  induction l0 as [|c l0 IH]; intros st0 LE BF; destruct st0 as [|s st0]; try discriminate LE; cbn [app before] in BF.
  - destruct BF as (_ & H1 & _ & H2 & _). split; [exact H1|]. intros OC k k' K K'. apply (H2 OC k k' K). right. split; [reflexivity|exact K'].
  - destruct BF as (_ & _ & _ & _ & BF). apply (IH st0); [cbn in LE; lia|exact BF].
Qed.

Lemma group_built opt rep l : wf (CGroup opt rep l) -> (forall c, In c l -> memberL c) -> memberL (CGroup opt rep l).
Proof.
  intros WF M A K T s n p p' den H O LV NL DC SN (RLs & RLn & RB & RO & RL & RF) BD AK AT AO.
  pose proof (wf_written _ WF) as W. inversion W as [| | | |? ? ? NE RPO WL]; subst. inversion DC as [| | | |? ? ? ? AP DS]; subst.
  pose proof (once_seq _ _ _ (wf_once _ WF)) as SO. pose proof (wf_loops _ WF) as LA.
  set (A' := fun k : Z => A k \/ rep = true /\ Bs l k) in *.
  assert (AK' : apart K (Bs l)) by (intros k k' X Y; apply (AK k k' X), B_group, Y).
  assert (AT' : apart T (Bs l)) by (intros k k' X Y; apply (AT k k' X), B_group, Y).
  assert (OMI : forallb isOptional l = true -> isOptional (CGroup opt rep l) = true) by (intros X; cbn [isOptional]; rewrite X; apply orb_true_r).
  assert (AOM : forallb isOptional l = true -> apart K A'). { intros X k k' Y [Z|(_ & Z)]; [apply (AO (OMI X) k k' Y Z)|apply (AK' k k' Y Z)]. }
  destruct (group_parts _ _ _ _ _ _ _ _ LV H) as (first & rest & p1 & p2 & p3 & p4 & ls & G).
  destruct G as [gp_len0 gp_first0 gp_rest0 gp_nodup0 gp_zlen0 gp_old0 gp_new0 gp_seq0 gp_last0 gp_copy0 gp_extra0 gp_cells0].
  pose proof (zlen_nonneg (sts p)) as ZP.
  assert (LVS : forall x, In x (first :: rest) -> live p1 x).
  { intros x X. unfold live in *. destruct X as [<-|X]; [|specialize (gp_rest0 x X); lia]. destruct gp_first0 as [(-> & _)|(Q & _)]; lia. }
  set (tail := if rep then s else n) in *.
  assert (TL : tail < zlen (sts p)) by (unfold tail, live in *; destruct rep; lia).
  assert (O1 : okP p1) by (eapply grown_ok; eassumption).
  assert (NT : ~ In tail rest) by (intros C; specialize (gp_rest0 _ C); lia).
  assert (LE : length l = length (first :: rest)). { cbn [length]. rewrite gp_len0. destruct l; [contradiction|cbn; lia]. }
  assert (P1 : forall q r, has p1 q r -> has p q r).
  { intros q r (e & GE & Y). pose proof (zget_Some_inv _ _ _ GE) as Q. destruct (Z.lt_ge_cases q (zlen (sts p))) as [LT|GE'].
    - rewrite gp_old0 in GE by exact LT. exists e. auto.
    - rewrite gp_new0 in GE by lia. injection GE as <-. destruct Y. }
  assert (TA : sub (den tail) (fun k => den n k \/ rep = true /\ Bs l k)).
  { intros k X. unfold tail in X. destruct rep; [|auto]. destruct (RL eq_refl k X) as [Y|(_ & Y)]; [right; split; [reflexivity|apply B_group in Y; exact Y]|auto]. }
  assert (TA' : sub (den tail) A') by (intros k X; apply TA in X; destruct X as [X|X]; [left; apply SN, X|right; exact X]).
  assert (FL : flow (sequence l) (den tail)) by (eapply flow_mono; [eapply flow_group, RF|exact TA]).
  assert (LT : tail = FinalState \/ lo <= tail) by (unfold tail; destruct rep; auto).
  assert (LO : forall x, In x rest -> lo <= x) by (intros x X; specialize (gp_rest0 x X); unfold live in LV; lia).
  set (KK := fun q k : Z => q = s /\ K k). set (TT := fun q k : Z => q = s /\ T k).
  assert (NR : forall x, In x rest -> zget (sts p1) x = Some (mkEntry 0 [] []) /\ forall k, ~ KK x k /\ ~ TT x k).
  { intros x X. specialize (gp_rest0 x X). split; [apply gp_new0; lia|]. intros k. unfold live in LV. unfold KK, TT. lia. }
  assert (AKF : apart (KK first) (Bs l)) by (intros k k' (_ & X); apply (AK' k k' X)).
  assert (ATF : apart (TT first) (Bs l)) by (intros k k' (_ & X); apply (AT' k k' X)).
  assert (AHF : match l with c :: l' => isOptional c = true -> apart (KK first) (nextOf l' A') | [] => True end).
  { destruct l as [|c l']; [exact I|]. intros OC k k' (_ & X) [Y|(OM & Y)].
    - apply (AK' k k' X). apply B_cons; [apply WL; left; reflexivity|intros c' C; apply WL; right; exact C|]. auto.
    - apply (AOM ltac:(cbn [forallb]; rewrite OC; exact OM) k k' X Y). }
  assert (BF1 : forall den1, agree den den1 p -> before KK TT A' den1 p1 l (first :: rest)).
  { intros den1 AG. destruct l as [|c l']; [contradiction|]. cbn [before].
    assert (BC : sub (B c) (Bs (c :: l'))) by (intros k X; apply B_cons; [apply WL; left; reflexivity|intros c' C; apply WL; right; exact C|auto]).
    split; [|split; [intros k k' X Y; apply (AKF k k' X), BC, Y|split; [intros k k' X Y; apply (ATF k k' X), BC, Y|split; [exact AHF|apply before_fresh; exact NR]]]].
    destruct gp_first0 as [(-> & _)|(FN & _)].
    - eapply bounded_mono; [eapply bounded_same; [exact BD| |exact gp_zlen0|exact AG]| |].
      + apply gp_old0. unfold live in LV. lia.
      + intros k X. split; [reflexivity|exact X].
      + intros k X. split; [reflexivity|exact X].
    - eapply bounded_mono; [apply bounded_fresh, gp_new0; lia| |]; intros k []. }
  assert (ASG : exists den1, agree den den1 p /\ reqs den1 tail l (first :: rest) /\ chained A' den1 tail l (first :: rest) /\ sub (den1 first) (den s)).
  { destruct gp_first0 as [(EF & NX)|(FN & NX)].
    - (* the group begins in its entry state *)
      destruct l as [|c0 l']; [contradiction|]. cbn [length] in gp_len0. rewrite Nat.sub_succ, Nat.sub_0_r in gp_len0.
      subst first. apply NoDup_cons_iff in gp_nodup0. destruct gp_nodup0 as (N1 & N2).
      assert (Wc : written c0) by (apply WL; left; reflexivity). assert (WL' : forall c, In c l' -> written c) by (intros c C; apply WL; right; exact C).
      destruct (flow_cons c0 l' _ Wc WL' FL) as (F1 & F2).
      set (den1 := assign l' rest (den tail) den).
      assert (AG : agree den den1 p). { intros q Q. symmetry. apply assign_other. intros C. specialize (gp_rest0 _ C). lia. }
      assert (ES : den1 s = den s) by (symmetry; apply AG; unfold live in LV; lia).
      assert (EH : forall k, den1 (hd tail rest) k <-> nextOf l' (den tail) k) by (intros k; apply assign_head; [congruence|exact NT]).
      exists den1. split; [exact AG|]. split; [|split; [|rewrite ES; intros k X; exact X]].
      + cbn [reqs]. split; [|apply reqs_assign; auto].
        split; [exact RLs|]. split; [destruct rest as [|x rest']; cbn [hd]; [exact LT|right; apply LO; left; reflexivity]|]. rewrite ES.
        assert (SB : sub (Bs (c0 :: l')) (den s)) by (intros k X; apply RB, B_group, X).
        split; [intros k X; apply SB, B_cons; auto|]. split.
        { intros OC k X. apply EH in X. destruct X as [X|(OM & X)]; [apply SB, B_cons; auto|].
          unfold tail in X. destruct rep; [exact X|]. apply RO; [|exact X]. apply OMI. cbn [forallb]. rewrite OC. exact OM. }
        split; [|eapply flow_mono; [exact F1|]; intros k X; apply EH, X].
        intros BL k X. cbn [loopsApart] in LA. apply andb_true_iff in LA as (_ & LA). rewrite BL in LA. cbn [negb orb] in LA. destruct rep.
        * cbn [andb] in NX. destruct (zlen_one _ NE NX) as (x0 & EQ). injection EQ as -> ->. rewrite (RPO eq_refl) in LA. cbn in LA. rewrite !andb_true_r, !orb_false_r in LA.
          right. split; [exact LA|]. apply EH. right. split; [reflexivity|exact X].
        * cbn [andb] in LA. rewrite orb_false_r in LA.
          destruct (RL BL k X) as [Y|(OG & Y)].
          -- apply B_group in Y. apply B_cons in Y; [|exact Wc|exact WL']. destruct Y as [Y|(OC & Y)]; [auto|]. right. split; [exact OC|]. apply EH. left. exact Y.
          -- assert (OM : forallb isOptional (c0 :: l') = true). { cbn [isOptional] in OG. destruct opt; [exact LA|exact OG]. }
             cbn [forallb] in OM. apply andb_true_iff in OM as (OC & OM). right. split; [exact OC|]. apply EH. right. split; [exact OM|exact Y].
      + cbn [chained]. split; [intros k X; apply EH in X; eapply nextOf_mono; [exact TA'|exact X]|]. apply chained_assign; [congruence|exact N2|exact NT|exact TA'].
    - (* a repeated sequence with its own first state *)
      apply andb_true_iff in NX. destruct NX as (RT & NX). subst rep. unfold tail in *.
      assert (NTF : ~ In s (first :: rest)) by (intros [C|C]; [unfold live in LV; lia|contradiction]).
      set (den1 := assign l (first :: rest) (den s) den).
      assert (AG : agree den den1 p). { intros q Q. symmetry. apply assign_other. intros [C|C]; [lia|specialize (gp_rest0 _ C); lia]. }
      exists den1. split; [exact AG|]. split; [|split].
      + apply reqs_assign; auto. intros x [<-|X]; [unfold live in LV; lia|auto].
      + apply chained_assign; auto.
      + intros k X. unfold den1 in X. destruct l as [|c0 l']; [contradiction|]. cbn [assign] in X. rewrite Z.eqb_refl in X. destruct X as [X|(_ & X)]; [apply RB, B_group, X|exact X]. }
  destruct ASG as (den1 & AG1 & R1 & CH1 & FS).
  assert (BF0 := BF1 den1 AG1).
  assert (ST1 : sub (den1 tail) A') by (rewrite <- (AG1 tail TL); exact TA').
  destruct (seq_built KK TT A' l WL M (first :: rest) tail p1 p2 den1 gp_seq0 O1 LVS gp_nodup0 ltac:(lia) DS ST1 R1 LE CH1 BF0) as (den2 & AG2 & AD2 & Z2 & O2 & AF2 & CL2).
  assert (R2 : reqs den2 tail l (first :: rest)) by (eapply reqs_agree; [exact AG2|exact LVS|lia|exact R1]).
  assert (AGP : agree den den2 p). { intros q Q. rewrite (AG1 q Q). apply AG2. lia. }
  assert (ST2 : sub (den2 tail) A') by (rewrite <- (AGP tail TL); exact TA').
  destruct (seq_keeps firsts l WL _ _ _ _ gp_seq0 LVS) as (_ & KP2).
  destruct gp_last0 as (lc & l0 & st0 & EL & ES & LEN & BP).
  assert (LSI : In ls (first :: rest)) by (rewrite ES; apply in_app_iff; right; left; reflexivity).
  assert (S3 : adds den2 p2 p3 /\ zlen (sts p3) = zlen (sts p2) /\ okP p3 /\ forall q, q <> ls -> zget (sts p3) q = zget (sts p2) q).
  { destruct (isOptional lc) eqn:OC; [|injection BP as <-; split; [apply adds_refl|auto]].
    pose proof BP as BP'. unfold bypassRule in BP'. destruct (addRule_one _ _ _ _ _ _ O2 BP') as (_ & (Z & FF) & O3 & _). split; [|auto].
    eapply addRule_adds; [exact O2|exact BP'|exact LT|lia|]. intros k [<-|[]]. unfold fits. cbn [rState rNode rToken]. rewrite Z.eqb_refl. split; [reflexivity|].
    assert (RLL : req den2 lc ls tail).
    { clear - R2 EL ES LEN. revert st0 l ES EL R2 LEN. generalize (first :: rest) as states. induction l0 as [|c l0 IH]; intros states st0 l ES EL R2 LEN.
      - destruct st0; [|discriminate]. cbn [app] in *. subst. apply R2.
      - destruct st0 as [|x st0]; [discriminate|]. cbn [app] in *. subst. cbn [reqs] in R2. destruct R2 as (_ & R2). eapply (IH _ st0); eauto. }
    apply RLL, OC. }
  destruct S3 as (AD3 & Z3 & O3 & KP3).
  assert (AF3 : after KK TT A' true den2 p3 l (first :: rest)).
  { rewrite EL, ES in BF0. destruct (before_last _ _ _ _ _ _ _ _ _ LEN BF0) as (Q1 & Q2). rewrite EL, ES. rewrite EL, ES in AF2. rewrite ES in gp_nodup0. rewrite EL in DS, WL.
    apply (after_bypass KK TT A' den2 p2 p3 tail lc ls l0 st0 LEN gp_nodup0 O2 ltac:(lia) ST2 WL DS Q1 Q2 BP AF2). }
  assert (AD13 : adds den2 p1 p3). { eapply adds_trans; [exact AD2|intros q _; reflexivity|lia|exact AD3]. }
  assert (NEWGOOD : forall x r, zlen (sts p) <= x -> has p3 x r -> good den2 p3 x r).
  { intros x r X Y. apply AD13 in Y. destruct Y as [Y|Y]; [|exact Y]. apply P1 in Y. apply has_live in Y. unfold live in Y. lia. }
  assert (AD4 : adds den2 p3 p4).
  { apply (copyBack_adds den2 tail l (first :: rest) p3 p4 gp_copy0 O3 LE gp_nodup0 R2). cbn [tl]. intros x r X Y. apply NEWGOOD; [|exact Y]. specialize (gp_rest0 x X). lia. }
  destruct (copyBack_built KK TT A' den2 l (first :: rest) p3 p4 NE gp_copy0 O3 LE gp_nodup0 WL DS SO) as (Z4 & O4 & BD4 & CL4).
  { cbn [tl]. intros x X. apply NR, X. } { exact AKF. } { exact ATF. } { exact AHF. } { exact AF3. }
  cbn [hd tl] in BD4, CL4.
  destruct (copyBack_keeps _ _ _ _ gp_copy0) as (_ & KP4).
  assert (AD14 : adds den2 p1 p4). { eapply adds_trans; [exact AD13|intros q _; reflexivity|lia|exact AD4]. }
  assert (AD04 : adds den2 p p4). { intros q r X. apply AD14 in X. destruct X as [X|X]; auto. }
  assert (KP24 : forall q, ~ In q (first :: rest) -> zget (sts p4) q = zget (sts p2) q).
  { intros q N. rewrite KP4 by (intros C; apply N, removelast_In, C). apply KP3. intros ->. contradiction. }
  assert (CL : forall q, zlen (sts p) <= q < zlen (sts p4) -> clear den2 p4 q).
  { intros q Q. destruct (in_dec Z.eq_dec q (first :: rest)) as [[<-|X]|N].
    - eapply bounded_clear, BD4.
    - apply CL4, X.
    - assert (C2 : clear den2 p2 q).
      { destruct (Z.lt_ge_cases q (zlen (sts p1))) as [LQ|GQ]; [|apply CL2; lia].
        eapply bounded_mono; [apply bounded_fresh; rewrite (KP2 q LQ N); apply gp_new0; lia| |]; intros k []. }
      eapply bounded_same; [exact C2|apply KP24, N|lia|intros z _; reflexivity]. }
  assert (TW : forall k, leavesSeq l true = true /\ nextOf l A' k -> leaves (CGroup opt rep l) true = true /\ (B (CGroup opt rep l) k \/ isOptional (CGroup opt rep l) = true /\ A k)).
  { intros k (L & X). rewrite leaves_group, orb_true_r. split; [exact L|]. destruct X as [X|(OM & [X|(_ & X)])]; [left; apply B_group, X|right; auto|left; apply B_group, X]. }
  exists den2. split; [exact AGP|].
  destruct gp_first0 as [(EF & NX)|(FN & NX)]; rewrite NX in gp_extra0.
  - injection gp_extra0 as <-. split; [exact AD04|]. split; [|exact CL]. rewrite EF in BD4. eapply bounded_mono; [exact BD4| |].
    + intros k [(_ & X)|X]; [auto|right; apply B_group, X].
    + intros k [(_ & X)|X]; [auto|right; apply TW, X].
  - destruct (copyRules_spec _ _ _ _ O4 gp_extra0) as (L & L' & FO & O' & S). assert (Z5 : zlen (sts p') = zlen (sts p4)) by apply FO.
    assert (NI : ~ In s (first :: rest)). { unfold live in LV. intros [C|C]; [lia|specialize (gp_rest0 _ C); lia]. }
    split; [|split].
    + eapply (adds_trans den2 den2 p p4 p'); [exact AD04|intros q _; reflexivity|lia|].
      intros q r X. destruct (Z.eq_dec q s) as [->|NEQ]; [|left; apply (has_onlyAt _ _ _ _ _ FO NEQ), X].
      apply S in X. destruct X as [X|[X _]]; [|auto]. right. apply AD04 in X. destruct X as [X|(T0 & N & C)].
      * apply has_live in X. unfold live in X. lia.
      * split; [exact T0|]. split; [lia|]. eapply fits_copy; [|exact C]. rewrite <- (AG2 first), <- (AGP s); [exact FS|unfold live in LV; lia|lia].
    + assert (BS : bounded den2 p4 s K T).
      { eapply bounded_same; [exact BD| |lia|exact AGP]. rewrite (KP24 s NI), (KP2 s); [|unfold live in LV; lia|exact NI]. apply gp_old0. unfold live in LV. lia. }
      assert (NF : forall k, ~ KK first k /\ ~ TT first k) by (intros k; unfold KK, TT; unfold live in LV; lia).
      eapply bounded_mono; [eapply (bounded_copy den2 p4 p' s first); [exact O4|exact BS|exact BD4|exact gp_extra0| | |]| |].
      * intros k k' X [Y|Y]; [destruct (NF k'); contradiction|apply (AK' k k' X Y)].
      * intros k k' X [Y|(_ & [Y|(OM & Y)])]; [destruct (NF k'); contradiction|apply (AK' k k' X Y)|apply (AOM OM k k' X Y)].
      * intros k k' X [Y|Y]; [destruct (NF k'); contradiction|apply (AT' k k' X Y)].
      * intros k [X|[X|X]]; [auto|destruct (NF k); contradiction|right; apply B_group, X].
      * intros k [X|[X|X]]; [auto|destruct (NF k); contradiction|right; apply TW, X].
    + intros q Q. eapply bounded_same; [apply CL; lia|apply FO; unfold live in LV; lia|lia|intros z _; reflexivity].
Qed.

Theorem build_member c : wf c -> memberL c.
Proof.
  induction c as [t| |i|opt rep l IH|l IH] using chunk_nest; intros WF.
  - pose proof (wf_written _ WF) as W. inversion W as [? P| | | |]; subst. intros A K T s n p p' den H O LV NL DC SN (RLs & RLn & RB & RO & RL & RF) BD AK AT AO.
    change (buildStates firsts (CTok t) s n p) with (addRule p s n SameNode [t]) in H. exists den. split; [intros q _; reflexivity|]. split; [|split].
    + eapply addRule_adds; [exact O|exact H|exact RLn|exact NL|]. intros k [<-|[]]. unfold fits. cbn [rToken rState rNode]. destruct (Z.eqb_spec t AnyToken); [unfold AnyToken in *; lia|].
      split; [exact P|]. split; [apply RB, B_token; reflexivity|]. intros X. contradiction X. reflexivity.
    + cbn [addRule] in H. ob H. injection H as <-. eapply bounded_mono; [eapply bounded_read; [exact O|exact BD|exact H0|exact P|exact NL| |]| |].
      * intros k k' X <-. apply (AK k t X), B_token. reflexivity.
      * intros k k' X <-. apply (AT k t X), B_token. reflexivity.
      * intros k [X| ->]; [auto|right; apply B_token; reflexivity].
      * intros k X. auto.
    + destruct (addRule_keeps _ _ _ _ _ _ H) as (_ & ->). lia.
  - pose proof (wf_endless _ WF) as E. discriminate E.
  - pose proof (wf_written _ WF) as W. inversion W as [| |? P| |]; subst. intros A K T s n p p' den H O LV NL DC SN (RLs & RLn & RB & RO & RL & RF) BD AK AT AO.
    change (buildStates firsts (CNode i) s n p) with (addRule p s n i (firstsOf firsts i)) in H. destruct (FI i (wf_nodes _ WF i (M_node i))) as (ND & FT).
    exists den. split; [intros q _; reflexivity|]. split; [|split].
    + eapply addRule_adds; [exact O|exact H|exact RLn|exact NL|]. intros k X. destruct (FT k X) as (F1 & F2). unfold fits. cbn [rToken rState rNode]. destruct (Z.eqb_spec k AnyToken); [unfold AnyToken in *; lia|].
      split; [exact F2|]. split; [apply RB, B_nested, F1|]. intros _. apply (RF [] i 0 []). constructor. exact I.
    + eapply bounded_mono; [eapply bounded_reads; [exact O|exact BD|exact H|exact NL|exact ND| | | |]| |].
      * intros k X. apply FT, X.
      * intros k k' X Y. apply (ONE i); [apply FT, X|apply FT, Y].
      * intros k k' X Y. apply (AK k k' X), B_nested, FT, Y.
      * intros k k' X Y. apply (AT k k' X), B_nested, FT, Y.
      * intros k [X|X]; [auto|right; apply B_nested, FT, X].
      * intros k X. auto.
    + destruct (addRule_keeps _ _ _ _ _ _ H) as (_ & ->). lia.
  - apply group_built; [exact WF|]. intros c C. apply IH; [exact C|eapply wf_member_group; eassumption].
  - assert (MB : forall c, In c l -> wf c /\ memberL c). { intros c C. assert (X : wf c) by (eapply wf_member_var; eassumption). auto. }
    intros A K T s n p p' den H O LV NL DC SN (RLs & RLn & RB & RO & RL & RF) BD AK AT AO.
    pose proof (wf_loops _ WF) as LA. cbn [loopsApart] in LA. apply andb_true_iff in LA as (_ & LB). apply negb_true_iff in LB.
    inversion DC as [| | |? ? DM FO OM|]; subst. rewrite buildStates_var in H.
    assert (RQ : forall c, In c l -> req den c s n).
    { intros c C. split; [exact RLs|]. split; [exact RLn|]. split; [intros k X; apply RB, B_variant; eauto|]. split; [|split].
      - intros OC. apply RO. cbn [isOptional]. apply existsb_exists. eauto.
      - intros BL. assert (X : existsb beginsLoop l = true) by (apply existsb_exists; eauto). congruence.
      - eapply flow_var; eassumption. }
    assert (AK1 : forall c, In c l -> apart K (B c)) by (intros c C k k' X Y; apply (AK k k' X), B_variant; eauto).
    assert (AT1 : forall c, In c l -> apart T (B c)) by (intros c C k k' X Y; apply (AT k k' X), B_variant; eauto).
    assert (AO1 : forall c, In c l -> isOptional c = true -> apart K A) by (intros c C OC; apply AO; cbn [isOptional]; apply existsb_exists; eauto).
    assert (OM1 : forall c c', In c l -> In c' l -> isOptional c = true -> apart (B c') A).
    { intros c c' C C' OC. apply (OM c c' C C'). apply omit_iff; [apply (wf_written _ (proj1 (MB c C)))|exact OC]. }
    enough (X : exists den', agree den den' p /\ adds den' p p' /\
      bounded den' p' s (fun k => K k \/ exists c, In c l /\ B c k)
        (fun k => T k \/ existsb (fun c => leaves c true) l = true /\ ((exists c, In c l /\ B c k) \/ existsb isOptional l = true /\ A k)) /\
      (forall q, zlen (sts p) <= q < zlen (sts p') -> clear den' p' q)).
    { destruct X as (den' & X1 & X2 & X3 & X4). exists den'. split; [exact X1|]. split; [exact X2|]. split; [|exact X4]. cbn [leaves isOptional]. eapply bounded_mono; [exact X3| |].
      - intros k [X|X]; [auto|right; apply B_variant, X].
      - intros k [X|(X & [Y|Y])]; [auto|right; split; [exact X|left; apply B_variant, Y]|right; auto]. }
    clear IH WF DC RLs RLn RB RO RL RF AK AT AO LB OM. revert p den K T H O LV NL SN BD RQ AK1 AT1 AO1.
    induction l as [|c l IL]; intros p den K T H O LV NL SN BD RQ AK1 AT1 AO1; cbn [buildVar] in H.
    + injection H as <-. exists den. split; [intros q _; reflexivity|]. split; [apply adds_refl|]. split; [|lia]. eapply bounded_mono; [exact BD| |]; intros k X; auto.
    + ob H. rename x into pm. destruct (MB c (or_introl eq_refl)) as (WFc & Mc). pose proof (wf_written _ WFc) as Wc.
      pose proof (build_zlen _ _ _ _ _ _ Wc H0) as Z1. inversion FO as [|? ? FO1 FO2]; subst. rewrite Forall_forall in FO1.
      destruct (Mc A K T s n p pm den H0 O LV NL (DM c (or_introl eq_refl)) SN (RQ c (or_introl eq_refl)) BD (AK1 c (or_introl eq_refl)) (AT1 c (or_introl eq_refl)) (AO1 c (or_introl eq_refl)))
        as (den1 & AG1 & AD1 & BD1 & CL1).
      assert (LV1 : live pm s) by (unfold live in *; lia).
      destruct (IL (fun c' C => MB c' (or_intror C)) (fun c' C => DM c' (or_intror C)) FO2 (fun c1 c2 C1 C2 => OM1 c1 c2 (or_intror C1) (or_intror C2)) pm den1 (fun k => K k \/ B c k) (fun k => T k \/ leaves c true = true /\ (B c k \/ isOptional c = true /\ A k)) H) as (den2 & AG2 & AD2 & BD2 & CL2).
      * eapply build_ok; eassumption.
      * exact LV1.
      * lia.
      * rewrite <- (AG1 n NL). exact SN.
      * exact BD1.
      * intros c' C. eapply req_agree; [exact AG1|unfold live in LV; lia|exact NL|apply RQ; right; exact C].
      * intros c' C k k' [X|X] Y; [apply (AK1 c' (or_intror C) k k' X Y)|apply (FO1 c' C k k' X Y)].
      * intros c' C k k' [X|(_ & [X|(OC & X)])] Y; [apply (AT1 c' (or_intror C) k k' X Y)|apply (FO1 c' C k k' X Y)|].
        intros CC. apply (OM1 c c' (or_introl eq_refl) (or_intror C) OC k' k Y X), CS, CC.
      * intros c' C OC k k' [X|X] Y; [apply (AO1 c' (or_intror C) OC k k' X Y)|]. apply (OM1 c' c (or_intror C) (or_introl eq_refl) OC k k' X Y).
      * assert (Z2 : zlen (sts pm) <= zlen (sts p') /\ forall q, q < zlen (sts pm) -> q <> s -> zget (sts p') q = zget (sts pm) q).
        { clear - H MB LV1. assert (MB' : forall c0, In c0 l -> written c0) by (intros c0 C; apply (wf_written _ (proj1 (MB c0 (or_intror C))))). clear MB. revert pm H LV1.
          induction l as [|c1 l IL]; intros pm H LV; cbn [buildVar] in H; [injection H as <-; split; [lia|auto]|]. ob H.
          pose proof (MB' c1 (or_introl eq_refl)) as W1. pose proof (build_zlen _ _ _ _ _ _ W1 H0) as Z1. pose proof (build_keeps firsts c1 W1 _ _ _ _ H0 LV) as KP.
          destruct (IL (fun c0 C => MB' c0 (or_intror C)) x H) as (Z2 & K2); [unfold live in *; lia|]. split; [lia|]. intros q Q N. rewrite K2 by (auto; lia). apply KP; auto. }
        destruct Z2 as (Z2 & KP2).
        exists den2. split; [intros q Q; rewrite (AG1 q Q); apply AG2; lia|]. split; [eapply adds_trans; [exact AD1|exact AG2|exact Z2|exact AD2]|]. split.
        -- eapply bounded_mono; [exact BD2| |].
           ++ intros k [[X|X]|(c' & C & X)]; [auto|right; exists c; split; [left; reflexivity|exact X]|right; exists c'; split; [right; exact C|exact X]].
           ++ intros k [[X|(L & X)]|(L & X)]; [auto| |]; right; cbn [existsb]; rewrite L, ?orb_true_r; (split; [reflexivity|]).
              ** destruct X as [X|(OC & X)]; [left; exists c; split; [left; reflexivity|exact X]|right; rewrite OC; auto].
              ** destruct X as [(c' & C & X)|(OC & X)]; [left; exists c'; split; [right; exact C|exact X]|right; rewrite OC, orb_true_r; auto].
        -- intros q Q. destruct (Z.lt_ge_cases q (zlen (sts pm))) as [LQ|GQ]; [|apply CL2; lia].
           eapply bounded_same; [apply CL1; lia|apply KP2; [exact LQ|unfold live in LV; lia]|exact Z2|exact AG2].
Qed.
End Build.
