(** The records of an editor agree with its tree. *)
From Coq Require Import List Bool String Ascii Arith Lia.
From Verif Require Import Base BaseProofs Conf ConfSpec ConfProofs.
Import ListNotations.
Open Scope string_scope.
Open Scope nat_scope.
Open Scope list_scope.

(** ** Shapes *)
Lemma search_app ty a b : searchIn ty (a ++ b) = searchIn ty a ++ searchIn ty b.
Proof. apply filter_app. Qed.
Lemma search_none ty ks : (forall t, In t ks -> tty t <> ty) -> searchIn ty ks = [].
Proof. unfold searchIn. induction ks as [|t ks IH]; cbn; intros H; [reflexivity|]. destruct (String.eqb_spec (tty t) ty) as [E|_]; [exfalso; exact (H t (or_introl eq_refl) E)|]. apply IH. auto. Qed.
Lemma side_none ty ks : Forall side ks -> ty <> "space" -> ty <> "comment" -> searchIn ty ks = [].
Proof. intros F N1 N2. apply search_none. intros t HI <-. apply (proj1 (Forall_forall _ _) F) in HI. destruct HI as [H|H]; congruence. Qed.
Lemma plain_none ty ks : Forall plain ks -> ty <> "space" -> ty <> "comment" -> ty <> "nl" -> searchIn ty ks = [].
Proof. intros F N1 N2 N3. apply search_none. intros t HI <-. apply (proj1 (Forall_forall _ _) F) in HI. destruct HI as [[H|H]|H]; congruence. Qed.
Lemma header_none ty ks : Forall inHeader ks -> ty <> "space" -> ty <> "comment" -> ty <> "nl" -> ty <> "op" -> searchIn ty ks = [].
Proof. intros F N1 N2 N3 N4. apply search_none. intros t HI <-. apply (proj1 (Forall_forall _ _) F) in HI. destruct HI as [[[H|H]|H]|H]; congruence. Qed.

Lemma search_cons ty t ks : searchIn ty (t :: ks) = if String.eqb (tty t) ty then t :: searchIn ty ks else searchIn ty ks.
Proof. reflexivity. Qed.
Arguments searchIn : simpl never.

Section P.
Variable trim : string -> string.
Hypothesis trim_empty : trim "" = "".
Hypothesis trim_twice : forall x, trim (trim x) = trim x.
Notation entryOf := (entryOf trim).
Notation piece := (piece trim).
Notation sectionOf := (sectionOf trim).
Notation saysIn := (saysIn trim).
Notation says := (says trim).
Notation hasSection := (hasSection trim).
Notation document := (document trim).
Notation noRepeats := (noRepeats trim).
Notation entryNamed := (entryNamed trim).
Notation sectionNamed := (sectionNamed trim).

Lemma entry_name n v ks : entryOf n v ks -> exists i, searchIn "name" ks = [Tk i "name" n].
Proof.
  intros [i s1 j rest F1 F2 _|i s1 j s2 k x rest F1 F2 F3 _]; exists i; repeat (progress (rewrite ?search_cons, ?search_app; cbn)).
  - rewrite (side_none _ _ F1), (plain_none _ _ F2) by discriminate. reflexivity.
  - rewrite (side_none _ _ F1), (side_none _ _ F2), (plain_none _ _ F3) by discriminate. reflexivity.
Qed.
Lemma entry_value n v ks : entryOf n v ks -> (searchIn "value" ks = [] /\ v = "") \/ exists k x, searchIn "value" ks = [Tk k "value" x] /\ v = trim x.
Proof.
  intros [i s1 j rest F1 F2 E|i s1 j s2 k x rest F1 F2 F3 E]; repeat (progress (rewrite ?search_cons, ?search_app; cbn)).
  - left. rewrite (side_none _ _ F1), (plain_none _ _ F2) by discriminate. auto.
  - right. exists k, x. rewrite (side_none _ _ F1), (side_none _ _ F2), (plain_none _ _ F3) by discriminate. auto.
Qed.
Lemma entry_det n v n' v' ks : entryOf n v ks -> entryOf n' v' ks -> n = n' /\ v = v'.
Proof.
  intros H H'. destruct (entry_name _ _ _ H) as (i & E). destruct (entry_name _ _ _ H') as (i' & E'). rewrite E in E'. split; [congruence|].
  destruct (entry_value _ _ _ H) as [(A & B)|(k & x & A & B)], (entry_value _ _ _ H') as [(A' & B')|(k' & x' & A' & B')]; congruence.
Qed.

Definition topId (t : top) : id := match t with TNode i _ _ => i | TTok t => 0 end.
Lemma section_shape s ps t : sectionOf s ps t -> exists i ty hd, t = TNode i ty (hd ++ ps) /\ Forall piece ps /\ (forall ps', Forall piece ps' -> sectionOf s ps' (TNode i ty (hd ++ ps'))) /\
  (hd = [] /\ s = "" /\ ty = "def-section" \/ exists h ks, hd = [PNode h "header" ks] /\ s <> "" /\ ty = "section").
Proof.
  intros [i qs F|i h ks1 k n ks2 qs N F1 F2 F].
  - exists i, "def-section", []. repeat split; auto. intros ps' F'. constructor. exact F'.
  - exists i, "section", [PNode h "header" (ks1 ++ Tk k "sec-name" n :: ks2)]. repeat split; auto. { intros ps' F'. constructor; assumption. } right. eauto.
Qed.
Lemma section_name s ps i ty qs : sectionOf s ps (TNode i ty qs) -> (if String.eqb ty "def-section" then Some "" else do t <- secNameOf qs; Some (ttext t)) = Some s.
Proof.
  intros H. inversion H as [i' ps' F E1 E2 E3|i' h ks1 k n ks2 ps' N F1 F2 F E1 E2 E3]; subst; [reflexivity|]. cbn. unfold secNameOf. cbn [flat_map tokensOfPart]. rewrite !search_app, (header_none _ _ F1) by discriminate. rewrite search_cons. reflexivity.
Qed.
Lemma section_det s ps s' ps' t : sectionOf s ps t -> sectionOf s' ps' t -> s = s' /\ ps = ps'.
Proof.
  intros H H'. assert (exists i ty qs, t = TNode i ty qs) as (i & ty & qs & ->) by (destruct H; eauto). pose proof (section_name _ _ _ _ _ H) as E. pose proof (section_name _ _ _ _ _ H') as E'. rewrite E in E'. split; [congruence|].
  inversion H; subst; inversion H'; subst; congruence.
Qed.
Lemma says_named ps n v : saysIn ps n v -> exists p, In p ps /\ entryNamed n p.
Proof. intros (i & ks & HI & E). exists (PNode i "entry" ks). split; [exact HI|]. exists i, ks, v. auto. Qed.
Lemma named_says ps n p : In p ps -> entryNamed n p -> exists v, saysIn ps n v.
Proof. intros HI (i & ks & v & -> & E). exists v, i, ks. auto. Qed.

(** ** The invariant *)
Definition valueOk (n : string) (ks : list tok) (e : entry) : Prop :=
  match eValueNode e with
  | None => eValue e = "" /\ exists i s1 j rest, Forall side s1 /\ Forall plain rest /\ ks = Tk i "name" n :: s1 ++ Tk j "op" "=" :: rest
  | Some k => exists x i s1 j s2 rest, Forall side s1 /\ Forall side s2 /\ Forall plain rest /\ ks = Tk i "name" n :: s1 ++ Tk j "op" "=" :: s2 ++ Tk k "value" x :: rest /\ trim (eValue e) = trim x
  end.
Lemma valueOk_entry n ks e : valueOk n ks e -> entryOf n (trim (eValue e)) ks.
Proof.
  unfold valueOk. destruct (eValueNode e) as [k|]; [intros (x & i & s1 & j & s2 & rest & F1 & F2 & F3 & -> & E); rewrite E; econstructor 2; auto|].
  intros (E & i & s1 & j & rest & F1 & F2 & ->). rewrite E, trim_empty. constructor; auto.
Qed.
Definition entriesOk (ps : list part) (es : list (string * entry)) : Prop := forall n,
  match get n es with
  | None => forall v, ~ saysIn ps n v
  | Some e => exists ks, In (PNode (eNode e) "entry" ks) ps /\ valueOk n ks e
  end.
Definition recordsOk (root : list top) (secs : list (string * section)) : Prop := forall s,
  match get s secs with
  | None => ~ hasSection root s
  | Some sc => exists t ps, In t root /\ sectionOf s ps t /\ sNodes sc = [topId t] /\ entriesOk ps (sEntries sc)
  end.
Record inv (root : list top) (secs : list (string * section)) (f : id) : Prop := {
  i_doc : document root; i_num : numbered root f; i_rep : noRepeats root; i_rec : recordsOk root secs }.
Definition distinctParts (ps : list part) : Prop := ForallOrdPairs (fun p q => forall n, entryNamed n p -> ~ entryNamed n q) ps.

Lemma inv_ext root secs secs' f f' : inv root secs f -> (forall s, get s secs' = get s secs) -> f <= f' -> inv root secs' f'.
Proof.
  intros [D N R C] H L. constructor; try assumption.
  - destruct N as (N1 & N2 & N3 & N4). repeat split; try assumption. eapply Forall_impl; [|exact N4]. intros a X. cbn in X. lia.
  - intros s. rewrite H. apply C.
Qed.

(** what numbers may be put in *)
Lemma numbered_tops A T T' B f f' : numbered (A ++ T ++ B) f -> f <= f' ->
  NoDup (topIds T') -> NoDup (partIds (flat_map partsOf T')) -> NoDup (tokIds (flat_map partsOf T')) ->
  (forall i, In i (topIds T') -> In i (topIds T) \/ f <= i < f') -> (forall i, In i (partIds (flat_map partsOf T')) -> In i (partIds (flat_map partsOf T)) \/ f <= i < f') ->
  (forall i, In i (tokIds (flat_map partsOf T')) -> In i (tokIds (flat_map partsOf T)) \/ f <= i < f') -> numbered (A ++ T' ++ B) f'.
Proof.
  intros (N1 & N2 & N3 & N4) L D1 D2 D3 S1 S2 S3. unfold numbered. rewrite !Forall_app in N4. destruct N4 as (F1 & F2 & F3).
  rewrite !flat_map_app, ?topIds_app, ?partIds_app, ?tokIds_app in *.
  split; [eapply swap_nodup; eauto; intros i HI; apply S1 in HI as [HI|HI]; [auto|right; lia]|]. split; [eapply swap_nodup; eauto; intros i HI; apply S2 in HI as [HI|HI]; [auto|right; lia]|]. split; [eapply swap_nodup; eauto; intros i HI; apply S3 in HI as [HI|HI]; [auto|right; lia]|].
  rewrite !Forall_app in *. rewrite !Forall_forall in *. destruct F1 as (F11 & F12 & F13), F2 as (F21 & F22 & F23), F3 as (F31 & F32 & F33).
  repeat split; intros i HI.
  all: try (apply S1 in HI; destruct HI as [HI|HI]; [|lia]).
  all: try (apply S2 in HI; destruct HI as [HI|HI]; [|lia]).
  all: try (apply S3 in HI; destruct HI as [HI|HI]; [|lia]).
  all: match goal with H : forall x, In x ?l -> _, HI : In ?i ?l |- _ => specialize (H i HI); lia end.
Qed.
Lemma numbered_parts A j ty P ps ps' Q B f f' : numbered (A ++ TNode j ty (P ++ ps ++ Q) :: B) f -> f <= f' -> NoDup (partIds ps') -> NoDup (tokIds ps') ->
  (forall i, In i (partIds ps') -> In i (partIds ps) \/ f <= i < f') -> (forall i, In i (tokIds ps') -> In i (tokIds ps) \/ f <= i < f') -> numbered (A ++ TNode j ty (P ++ ps' ++ Q) :: B) f'.
Proof.
  intros N L D1 D2 S1 S2. destruct N as (N1 & N2 & N3 & N4). rewrite parts_at in *. unfold numbered. rewrite parts_at. assert (ET : topIds (A ++ TNode j ty (P ++ ps' ++ Q) :: B) = topIds (A ++ TNode j ty (P ++ ps ++ Q) :: B)) by (rewrite !topIds_app; reflexivity). rewrite ET.
  rewrite !Forall_app in N4. destruct N4 as (F1 & F2 & F3). rewrite (partIds_app (_ ++ _)), (partIds_app ps) in N2. rewrite (partIds_app (_ ++ _)), (partIds_app ps) in F2. rewrite (tokIds_app (_ ++ _)), (tokIds_app ps) in N3. rewrite (tokIds_app (_ ++ _)), (tokIds_app ps) in F3.
  rewrite (partIds_app (_ ++ _)), (partIds_app ps'), (tokIds_app (_ ++ _)), (tokIds_app ps').
  split; [exact N1|]. split; [eapply swap_nodup; eauto; intros i HI; apply S1 in HI as [HI|HI]; [auto|right; lia]|]. split; [eapply swap_nodup; eauto; intros i HI; apply S2 in HI as [HI|HI]; [auto|right; lia]|].
  rewrite !Forall_app in *. destruct F2 as (F21 & F22 & F23), F3 as (F31 & F32 & F33). rewrite !Forall_forall in *.
  repeat split; intros i HI.
  all: try (apply S1 in HI; destruct HI as [HI|HI]; [|lia]).
  all: try (apply S2 in HI; destruct HI as [HI|HI]; [|lia]).
  all: match goal with H : forall x, In x ?l -> _, HI : In ?i ?l |- _ => specialize (H i HI); cbn in H; lia end.
Qed.

(** ** A change in one section *)
Lemma in_change {A : Type} (x : A) X y y' Z : In x (X ++ y :: Z) -> x = y \/ In x (X ++ y' :: Z).
Proof. rewrite !in_app_iff. cbn. intuition. Qed.
Lemma unique_section root s t ps t' ps' : noRepeats root -> In t root -> In t' root -> sectionOf s ps t -> sectionOf s ps' t' -> t = t'.
Proof. intros [R _] I I' H H'. destruct (fop_in _ _ _ _ R I I') as [E|[X|X]]; [exact E| |]; exfalso; eapply (X s); eexists; eassumption. Qed.
Lemma change_says A t B s ps t' ps' : noRepeats (A ++ t :: B) -> sectionOf s ps t -> sectionOf s ps' t' ->
  (forall s' n v, s' <> s -> says (A ++ t' :: B) s' n v <-> says (A ++ t :: B) s' n v) /\ (forall n v, says (A ++ t' :: B) s n v <-> saysIn ps' n v) /\ (forall n v, says (A ++ t :: B) s n v <-> saysIn ps n v) /\
  (forall s', hasSection (A ++ t' :: B) s' <-> hasSection (A ++ t :: B) s').
Proof.
  intros R H H'.
  assert (OUT : forall u qs, In u A \/ In u B -> sectionOf s qs u -> False).
  { intros u qs HI HU. destruct R as [R _]. apply fop_app in R as (_ & R1 & R2). inversion R1 as [|? ? R3 _]; subst. destruct HI as [HI|HI]; [eapply (R2 u t HI (or_introl eq_refl) s)|eapply (proj1 (Forall_forall _ _) R3 u HI s)]; eexists; eassumption. }
  split; [|split; [|split]].
  - intros s' n v NE. split; intros (u & qs & HI & HU & HS); (eapply in_change in HI as [->|HI]; [exfalso; apply NE; eapply section_det; eassumption|]; exists u, qs; split; [exact HI|auto]).
  - intros n v. split; [|intros X; exists t', ps'; split; [apply in_elt|auto]]. intros (u & qs & HI & HU & HS). rewrite in_app_iff in HI. destruct HI as [HI|[<-|HI]]; [exfalso; eauto| |exfalso; eauto]. destruct (section_det _ _ _ _ _ H' HU) as [_ <-]. exact HS.
  - intros n v. split; [|intros X; exists t, ps; split; [apply in_elt|auto]]. intros (u & qs & HI & HU & HS). rewrite in_app_iff in HI. destruct HI as [HI|[<-|HI]]; [exfalso; eauto| |exfalso; eauto]. destruct (section_det _ _ _ _ _ H HU) as [_ <-]. exact HS.
  - intros s'. split; intros (u & qs & HI & HU).
    + destruct (in_change _ _ _ t _ HI) as [->|HI']; [|exists u, qs; auto]. destruct (section_det _ _ _ _ _ H' HU) as [<- _]. exists t, ps. split; [apply in_elt|exact H].
    + destruct (in_change _ _ _ t' _ HI) as [->|HI']; [|exists u, qs; auto]. destruct (section_det _ _ _ _ _ H HU) as [<- _]. exists t', ps'. split; [apply in_elt|exact H'].
Qed.
Lemma change_inv A t B s ps t' ps' secs f f' es b : inv (A ++ t :: B) secs f -> sectionOf s ps t -> sectionOf s ps' t' -> topId t' = topId t ->
  numbered (A ++ t' :: B) f' -> distinctParts ps' -> entriesOk ps' es -> inv (A ++ t' :: B) (put s (mkSec [topId t] es b) secs) f'.
Proof.
  intros [D N R C] H H' EI N' DP EO. destruct (change_says _ _ _ _ _ _ _ R H H') as (S1 & S2 & _ & S4). constructor; [|exact N'| |].
  - apply Forall_app in D as [D1 D2]. inversion D2; subst. apply Forall_app. split; [exact D1|]. constructor; [econstructor; exact H'|assumption].
  - destruct R as [R1 R2]. split.
    + apply fop_app in R1 as (R3 & R4 & R5). inversion R4 as [|? ? R6 R7]; subst. apply fop_app. split; [exact R3|].
      assert (NM : forall x, sectionNamed x t' -> sectionNamed x t) by (intros x (qs & X); destruct (section_det _ _ _ _ _ H' X) as [<- _]; exists ps; exact H).
      split; [constructor; [|exact R7]; rewrite Forall_forall in *; intros u HU x X; apply (R6 u HU x); auto|]. intros x y HX [<-|HY]; [intros z Z1 Z2; eapply (R5 x t HX (or_introl eq_refl) z Z1); auto|apply R5; [exact HX|right; exact HY]].
    + intros u x qs HI HU. destruct (in_change _ _ _ t _ HI) as [->|HI']; [destruct (section_det _ _ _ _ _ H' HU) as [_ <-]; exact DP|exact (R2 u x qs HI' HU)].
  - intros x. rewrite get_put. destruct (String.eqb_spec x s) as [->|NE].
    + exists t', ps'. split; [apply in_elt|]. cbn. rewrite EI. auto.
    + specialize (C x). destruct (get x secs) as [sc|]; [|rewrite S4; exact C]. destruct C as (u & qs & HI & HU & X). exists u, qs. destruct (in_change _ _ _ t' _ HI) as [->|HI']; [exfalso; apply NE; eapply section_det; eassumption|]. auto.
Qed.
End P.
