(** Each edit does to what the file says what it should. *)
From Coq Require Import List Bool String Ascii Arith Lia.
From Verif Require Import Base BaseProofs Conf ConfSpec ConfProofs ConfInv.
Import ListNotations.
Open Scope string_scope.
Open Scope nat_scope.
Open Scope list_scope.

(** ** Names *)
Lemma lastDot_ok s : match lastDot s with
  | Some (a, b) => s = (a ++ "." ++ b)%string /\ (forall x y, b <> x ++ "." ++ y)%string
  | None => (forall x y, s <> x ++ "." ++ y)%string end.
Proof.
  induction s as [|c r IH]; cbn [lastDot].
  - intros [|? ?] y; discriminate.
  - destruct (lastDot r) as [[a b]|]; [destruct IH as [-> H]; split; [reflexivity|exact H]|]. destruct (Ascii.eqb_spec c "."%char) as [->|NE]; [split; [reflexivity|exact IH]|].
    intros [|x0 x] y E; [injection E as E1 E2; contradiction|]. injection E as E1 E2. exact (IH _ _ E2).
Qed.
Lemma splitName_ok name : dotted name (fst (splitName name)) (snd (splitName name)).
Proof. unfold splitName, dotted. pose proof (lastDot_ok name) as H. destruct (lastDot name) as [[a b]|]; cbn; [destruct H as [-> H]; auto|auto]. Qed.

Section P.
Variable trim : string -> string.
Hypothesis trim_empty : trim "" = "".
Hypothesis trim_twice : forall x, trim (trim x) = trim x.
Notation entryOf := (entryOf trim).
Notation piece := (piece trim).
Notation sectionOf := (sectionOf trim).
Notation saysIn := (saysIn trim).
Notation says := (says trim).
Notation hasSection := (hasSection trim).
Notation document := (document trim).
Notation noRepeats := (noRepeats trim).
Notation entryNamed := (entryNamed trim).
Notation sectionNamed := (sectionNamed trim).
Notation inv := (inv trim).
Notation entriesOk := (entriesOk trim).
Notation valueOk := (valueOk trim).
Notation distinctParts := (distinctParts trim).

(** ** Changes of one entry *)
Lemma named_det n n' p : entryNamed n p -> entryNamed n' p -> n = n'.
Proof. intros (i & ks & v & -> & E) (i' & ks' & v' & X & E'). injection X as <- <-. exact (proj1 (entry_det trim _ _ _ _ _ E E')). Qed.
Lemma parts_change n P l l' Q es es' : distinctParts (P ++ l ++ Q) -> (forall p, In p P \/ In p Q -> ~ entryNamed n p) -> (forall p, In p l -> entryNamed n p) -> (forall p, In p l' -> entryNamed n p) -> List.length l' <= 1 ->
  entriesOk (P ++ l ++ Q) es -> (forall n', n' <> n -> get n' es' = get n' es) ->
  (match get n es' with None => l' = [] | Some e' => exists ks, l' = [PNode (eNode e') "entry" ks] /\ valueOk n ks e' end) ->
  distinctParts (P ++ l' ++ Q) /\ entriesOk (P ++ l' ++ Q) es' /\ (forall n' v, n' <> n -> saysIn (P ++ l' ++ Q) n' v <-> saysIn (P ++ l ++ Q) n' v) /\ (forall v, saysIn (P ++ l' ++ Q) n v <-> saysIn l' n v).
Proof.
  intros D NN L L' LN EO GE GN.
  assert (OTH : forall n' v m m', n' <> n -> (forall p, In p m -> entryNamed n p) -> saysIn (P ++ m ++ Q) n' v -> saysIn (P ++ m' ++ Q) n' v).
  { intros n' v m m' NE M (i & ks & HI & E). exists i, ks. split; [|exact E]. rewrite !in_app_iff in *. destruct HI as [HI|[HI|HI]]; auto. exfalso. apply NE. eapply named_det; [|apply (M _ HI)]. exists i, ks, v. auto. }
  split; [|split; [|split]].
  - unfold distinctParts in *. apply fop_app in D as (D1 & D2 & D3). apply fop_app in D2 as (D4 & D5 & D6). apply fop_app. split; [exact D1|]. split.
    + apply fop_app. split; [destruct l' as [|a [|b r]]; [constructor|constructor; [constructor|constructor]|cbn in LN; lia]|]. split; [exact D5|]. intros x y HX HY m Mx My. pose proof (named_det _ _ _ (L' _ HX) Mx) as <-. exact (NN y (or_intror HY) My).
    + intros x y HX HY m Mx My. rewrite in_app_iff in HY. destruct HY as [HY|HY]; [|eapply D3; [exact HX|apply in_or_app; right; exact HY|exact Mx|exact My]]. pose proof (named_det _ _ _ (L' _ HY) My) as <-. exact (NN x (or_introl HX) Mx).
  - intros m. destruct (String.eqb_spec m n) as [->|NE].
    + destruct (get n es') as [e'|]; [destruct GN as (ks & -> & V); exists ks; split; [rewrite !in_app_iff; cbn; auto|exact V]|]. subst l'. intros v (i & ks & HI & E). rewrite !in_app_iff in HI. destruct HI as [HI|[[]|HI]]; (eapply NN; [eauto|exists i, ks, v; auto]).
    + rewrite (GE m NE). specialize (EO m). destruct (get m es) as [e|].
      * destruct EO as (ks & HI & V). exists ks. split; [|exact V]. rewrite !in_app_iff in *. destruct HI as [HI|[HI|HI]]; auto. exfalso. apply NE. eapply named_det; [|apply (L _ HI)]. exists (eNode e), ks, (trim (eValue e)). split; [reflexivity|]. apply (valueOk_entry trim trim_empty _ _ _ V).
      * intros v X. apply (EO v). exact (OTH m v l' l NE L' X).
  - intros m v NE. split; apply OTH; assumption.
  - intros v. split.
    + intros (i & ks & HI & E). exists i, ks. split; [|exact E]. rewrite !in_app_iff in HI. destruct HI as [HI|[HI|HI]]; auto; exfalso; (eapply NN; [eauto|exists i, ks, v; auto]).
    + intros (i & ks & HI & E). exists i, ks. split; [|exact E]. rewrite !in_app_iff. auto.
Qed.
(** changes of what is no entry *)
Lemma parts_quiet P l l' Q es : distinctParts (P ++ l ++ Q) -> (forall p n, In p l \/ In p l' -> ~ entryNamed n p) -> entriesOk (P ++ l ++ Q) es ->
  distinctParts (P ++ l' ++ Q) /\ entriesOk (P ++ l' ++ Q) es /\ (forall n v, saysIn (P ++ l' ++ Q) n v <-> saysIn (P ++ l ++ Q) n v).
Proof.
  intros D L EO.
  assert (OTH : forall n v m m', (forall p n, In p m -> ~ entryNamed n p) -> saysIn (P ++ m ++ Q) n v -> saysIn (P ++ m' ++ Q) n v).
  { intros n v m m' M (i & ks & HI & E). exists i, ks. split; [|exact E]. rewrite !in_app_iff in *. destruct HI as [HI|[HI|HI]]; auto. exfalso. apply (M _ n HI). exists i, ks, v. auto. }
  assert (L1 : forall p n, In p l -> ~ entryNamed n p) by (intros; apply L; auto). assert (L2 : forall p n, In p l' -> ~ entryNamed n p) by (intros; apply L; auto).
  split; [|split].
  - unfold distinctParts in *. apply fop_app in D as (D1 & D2 & D3). apply fop_app in D2 as (D4 & D5 & D6). apply fop_app. split; [exact D1|]. split.
    + apply fop_app. split; [|split; [exact D5|intros x y HX HY n Mx; exfalso; exact (L2 _ _ HX Mx)]]. clear - L2. induction l' as [|a r IH]; constructor; [|apply IH; intros; apply L2; right; assumption]. apply Forall_forall. intros x _ n Mx. exfalso. exact (L2 _ _ (or_introl eq_refl) Mx).
    + intros x y HX HY n Mx My. rewrite in_app_iff in HY. destruct HY as [HY|HY]; [exact (L2 _ _ HY My)|]. eapply D3; [exact HX|apply in_or_app; right; exact HY|exact Mx|exact My].
  - intros n. specialize (EO n). destruct (get n es) as [e|]; [|intros v X; apply (EO v), (OTH n v l' l L2 X)]. destruct EO as (ks & HI & V). exists ks. split; [|exact V]. rewrite !in_app_iff in *. destruct HI as [HI|[HI|HI]]; auto. exfalso. apply (L1 _ n HI). exists (eNode e), ks, (trim (eValue e)). split; [reflexivity|]. apply (valueOk_entry trim trim_empty _ _ _ V).
  - intros n v. split; apply OTH; assumption.
Qed.

(** what an edit did: entry [n] of section [s] has value [o] now, others are as before *)
Definition outcome (root root' : list top) (s n : string) (o : option string) : Prop :=
  (forall v, says root' s n v <-> o = Some v) /\ forall s' n' v, (s', n') <> (s, n) -> (says root' s' n' v <-> says root s' n' v).

Lemma change_entry A i ty hd B s n P l l' Q secs sc f f' es' b :
  inv (A ++ TNode i ty (hd ++ P ++ l ++ Q) :: B) secs f -> sectionOf s (P ++ l ++ Q) (TNode i ty (hd ++ P ++ l ++ Q)) -> sectionOf s (P ++ l' ++ Q) (TNode i ty (hd ++ P ++ l' ++ Q)) ->
  get s secs = Some sc -> entriesOk (P ++ l ++ Q) (sEntries sc) -> numbered (A ++ TNode i ty (hd ++ P ++ l' ++ Q) :: B) f' ->
  (forall p, In p P \/ In p Q -> ~ entryNamed n p) -> (forall p, In p l -> entryNamed n p) -> (forall p, In p l' -> entryNamed n p) -> List.length l' <= 1 ->
  (forall n', n' <> n -> get n' es' = get n' (sEntries sc)) ->
  (match get n es' with None => l' = [] | Some e' => exists ks, l' = [PNode (eNode e') "entry" ks] /\ valueOk n ks e' end) ->
  inv (A ++ TNode i ty (hd ++ P ++ l' ++ Q) :: B) (put s (mkSec [i] es' b) secs) f' /\
  outcome (A ++ TNode i ty (hd ++ P ++ l ++ Q) :: B) (A ++ TNode i ty (hd ++ P ++ l' ++ Q) :: B) s n (match get n es' with Some e => Some (trim (eValue e)) | None => None end).
Proof.
  intros I S S' G EO NU NN L L' LN GE GN. pose proof (i_rep _ _ _ _ I) as R. pose proof (proj2 R _ _ _ (in_elt _ _ _) S) as D.
  destruct (parts_change n P l l' Q _ es' D NN L L' LN EO GE GN) as (D' & EO' & X1 & X2). split; [exact (change_inv trim A _ B s _ _ _ secs f f' es' b I S S' eq_refl NU D' EO')|].
  destruct (change_says trim _ _ _ _ _ _ _ R S S') as (Y1 & Y2 & Y3 & _). split.
  - intros v. rewrite Y2, X2. destruct (get n es') as [e'|].
    + destruct GN as (ks & -> & V). apply (valueOk_entry trim trim_empty) in V. split.
      * intros (j & ks' & [HI|[]] & E). injection HI as <- <-. f_equal. exact (proj2 (entry_det trim _ _ _ _ _ V E)).
      * intros E. injection E as <-. exists (eNode e'), ks. split; [left; reflexivity|exact V].
    + subst l'. split; [intros (? & ? & [] & _)|discriminate].
  - intros s' n' v NE. destruct (String.eqb_spec s' s) as [->|NS]; [|apply Y1; exact NS]. rewrite Y2, Y3. apply X1. congruence.
Qed.

Lemma found s secs sc root f : inv root secs f -> get s secs = Some sc -> exists A i ty hd ps B, root = A ++ TNode i ty (hd ++ ps) :: B /\ sectionOf s ps (TNode i ty (hd ++ ps)) /\ Forall piece ps /\
  (forall ps', Forall piece ps' -> sectionOf s ps' (TNode i ty (hd ++ ps'))) /\ sNodes sc = [i] /\ entriesOk ps (sEntries sc) /\
  (hd = [] /\ s = "" /\ ty = "def-section" \/ exists h ks, hd = [PNode h "header" ks] /\ s <> "" /\ ty = "section").
Proof.
  intros I G. pose proof (i_rec _ _ _ _ I s) as C. rewrite G in C. destruct C as (t & ps & HI & S & N & EO). apply in_split in HI as (A & B & ->). destruct (section_shape _ _ _ _ S) as (i & ty & hd & -> & F & K & X). exists A, i, ty, hd, ps, B. auto 10.
Qed.
Lemma only_here n P p Q : distinctParts (P ++ [p] ++ Q) -> entryNamed n p -> forall q, In q P \/ In q Q -> ~ entryNamed n q.
Proof.
  intros D E q HI X. unfold distinctParts in D. apply fop_app in D as (_ & D1 & D2). cbn in D1. inversion D1 as [|? ? D3 _]; subst. destruct HI as [HI|HI]; [exact (D2 q p HI (or_introl eq_refl) n X E)|exact (proj1 (Forall_forall _ _) D3 q HI n E X)].
Qed.
Lemma numbered_toks A j ty P i pty a x x' b Q B f f' : numbered (A ++ TNode j ty (P ++ [PNode i pty (a ++ x ++ b)] ++ Q) :: B) f -> f <= f' -> NoDup (map tid x') ->
  (forall k, In k (map tid x') -> In k (map tid x) \/ f <= k < f') -> numbered (A ++ TNode j ty (P ++ [PNode i pty (a ++ x' ++ b)] ++ Q) :: B) f'.
Proof.
  intros N L D S. pose proof N as (_ & _ & N3 & N4). rewrite parts_at in N3, N4. rewrite !tokIds_app in N3. apply nodup_parts in N3 as [N3 _]. cbn in N3. rewrite app_nil_r, !map_app in N3.
  rewrite !Forall_app in N4. destruct N4 as (_ & _ & F). rewrite tokIds_app, Forall_app in F. destruct F as [_ F]. rewrite tokIds_app, Forall_app in F. destruct F as [F _]. cbn in F. rewrite app_nil_r, !map_app in F.
  eapply numbered_parts; [exact N|exact L|cbn; constructor; [intros []|constructor]| | |].
  - cbn. rewrite app_nil_r, !map_app. eapply swap_nodup; [exact N3|exact D|exact F|]. intros k HK. apply S in HK as [HK|HK]; [auto|right; lia].
  - cbn. auto.
  - cbn. rewrite !app_nil_r, !map_app. intros k. rewrite !in_app_iff. intros [H|[H|H]]; auto. apply S in H as [H|H]; auto.
Qed.

Lemma afterOp_at s1 j rest x : Forall side s1 -> afterOp (s1 ++ Tk j "op" "=" :: rest) x = Some (s1 ++ Tk j "op" "=" :: x ++ rest).
Proof. intros F. induction F as [|t s1 S F IH]; [reflexivity|]. cbn [app afterOp]. destruct (String.eqb_spec (tty t) "op") as [E|_]; [destruct S as [S|S]; congruence|]. rewrite IH. reflexivity. Qed.

Theorem set_known s n value root secs u f sc e : inv root secs f -> get s secs = Some sc -> get n (sEntries sc) = Some e ->
  exists c', sectionSetEntry trim s n value (mkConf root secs u f) = Some c' /\ inv (cRoot c') (cSections c') (cFresh c') /\ outcome root (cRoot c') s n (Some (trim value)).
Proof.
  intros I G GE. destruct (found _ _ _ _ _ I G) as (A & i & ty & hd & ps & B & -> & S & F & K & SN & EO & HD). pose proof (i_rep _ _ _ _ I) as R.
  destruct (change_says trim _ _ _ _ _ _ _ R S S) as (_ & _ & Y3 & _). pose proof (proj2 R _ _ _ (in_elt _ _ _) S) as D.
  pose proof (EO n) as EN. rewrite GE in EN. destruct EN as (ks & HI & V). apply in_split in HI as (P & Q & ->). pose proof (valueOk_entry trim trim_empty _ _ _ V) as EK.
  assert (NP : entryNamed n (PNode (eNode e) "entry" ks)) by (exists (eNode e), ks, (trim (eValue e)); auto).
  change (PNode (eNode e) "entry" ks :: Q) with ([PNode (eNode e) "entry" ks] ++ Q) in *. pose proof (only_here _ _ _ _ D NP) as OH.
  unfold sectionSetEntry. cbn [cSections cFresh cRoot cUpdated]. rewrite G. cbn [obind]. rewrite GE. destruct (String.eqb_spec (eValue e) value) as [<-|NV].
  { eexists. split; [reflexivity|]. split; [exact I|]. split; [|reflexivity]. intros v. rewrite Y3. split.
    - intros (j & ks' & HI & E). rewrite !in_app_iff in HI. destruct HI as [HI|[[HI|[]]|HI]]; [exfalso; eapply OH; [left; exact HI|exists j, ks', v; auto]| |exfalso; eapply OH; [right; exact HI|exists j, ks', v; auto]]. injection HI as <- <-. f_equal. exact (proj2 (entry_det trim _ _ _ _ _ EK E)).
    - intros E. injection E as <-. exists (eNode e), ks. split; [rewrite !in_app_iff; cbn; auto|exact EK]. }
  rewrite app_assoc in *.
  assert (GO : forall a x x' b, ks = a ++ x ++ b -> forall vn, vn = (if negb (String.eqb value "") then Some f else None) -> NoDup (map tid x') -> (forall k, In k (map tid x') -> In k (map tid x) \/ f <= k < 1 + f) -> valueOk n (a ++ x' ++ b) (mkEntry (eNode e) vn value) ->
    let root' := A ++ TNode i ty ((hd ++ P) ++ [PNode (eNode e) "entry" (a ++ x' ++ b)] ++ Q) :: B in let es' := put n (mkEntry (eNode e) vn value) (sEntries sc) in
    inv root' (put s (mkSec (sNodes sc) es' true) secs) (1 + f) /\ outcome (A ++ TNode i ty ((hd ++ P) ++ [PNode (eNode e) "entry" ks] ++ Q) :: B) root' s n (Some (trim value))).
  { intros a x x' b -> vn EV DX SX VX. cbn zeta. rewrite SN. assert (NX : entryNamed n (PNode (eNode e) "entry" (a ++ x' ++ b))) by (apply (valueOk_entry trim trim_empty) in VX; eexists _, _, _; eauto).
    pose proof (change_entry A i ty hd B s n P [PNode (eNode e) "entry" (a ++ x ++ b)] [PNode (eNode e) "entry" (a ++ x' ++ b)] Q secs sc f (1 + f) (put n (mkEntry (eNode e) vn value) (sEntries sc)) true) as X.
    rewrite !app_assoc in X. rewrite !app_assoc in *. rewrite get_put, String.eqb_refl in X. apply X; clear X; try assumption.
    - pose proof (K (P ++ [PNode (eNode e) "entry" (a ++ x' ++ b)] ++ Q)) as X. rewrite !app_assoc in X. apply X. rewrite <- !app_assoc in *. apply Forall_app in F as [F1 F2]. inversion F2; subst. apply Forall_app. split; [assumption|]. constructor; [|assumption]. destruct NX as (? & ? & ? & E & NX). injection E as <- <-. econstructor. exact NX.
    - pose proof (i_num _ _ _ _ I) as N. rewrite <- (app_assoc (hd ++ P)). rewrite <- (app_assoc (hd ++ P)) in N. rewrite <- (app_assoc a). rewrite <- (app_assoc a) in N. eapply numbered_toks; [exact N|lia|exact DX|exact SX].
    - intros p [<-|[]]. exact NP.
    - intros p [<-|[]]. exact NX.
    - cbn. lia.
    - intros n' NE. rewrite get_put. destruct (String.eqb_spec n' n); [contradiction|reflexivity].
    - exists ((a ++ x') ++ b). split; [reflexivity|exact VX]. }
  destruct (i_num _ _ _ _ I) as (ND1 & ND2 & ND3 & ND4).
  destruct (eValueNode e) as [k|] eqn:EVN; unfold valueOk in V; rewrite EVN in V.
  - destruct V as (x & i0 & s1 & j & s2 & rest & F1 & F2 & F3 & -> & _). cbn [obind]. eexists. split; [reflexivity|]. cbn [cRoot cSections cFresh].
    set (a := Tk i0 "name" n :: s1 ++ Tk j "op" "=" :: s2) in *. assert (EQ : Tk i0 "name" n :: s1 ++ Tk j "op" "=" :: s2 ++ Tk k "value" x :: rest = a ++ Tk k "value" x :: rest) by (unfold a; cbn; rewrite <- app_assoc; reflexivity). rewrite EQ in *.
    pose proof (onTok_at (fun _ => if negb (String.eqb value "") then [Tk f "value" value] else []) A i ty (hd ++ P) (eNode e) "entry" a (Tk k "value" x) rest Q B ND3) as OT. cbn [tid] in OT. cbn [app] in *. rewrite OT.
    destruct (GO a [Tk k "value" x] (if negb (String.eqb value "") then [Tk f "value" value] else []) rest eq_refl _ eq_refl) as [X1 X2]; [| | |split; [exact X1|exact X2]].
    + destruct (negb (String.eqb value "")); cbn; repeat constructor. intros [].
    + destruct (negb (String.eqb value "")); cbn; [|intros ? []]. intros k0 [<-|[]]. right. lia.
    + unfold valueOk. cbn [eValueNode eValue]. destruct (String.eqb_spec value "") as [->|NE]; cbn [negb].
      * split; [reflexivity|]. exists i0, s1, j, (s2 ++ rest). repeat split; [assumption|apply Forall_app; split; [eapply Forall_impl; [|exact F2]; intros t X; left; exact X|assumption]|unfold a; cbn; rewrite <- app_assoc; reflexivity].
      * exists value, i0, s1, j, s2, rest. repeat split; try assumption. unfold a. cbn. rewrite <- app_assoc. reflexivity.
  - destruct V as (EV & i0 & s1 & j & rest & F1 & F3 & ->). rewrite EV in NV. pose proof (findPart_at (eNode e) A i ty (hd ++ P) "entry" _ Q B ND2) as FP. cbn [app] in *. rewrite FP. cbn [obind]. rewrite (afterOp_at _ _ _ _ F1). cbn [obind].
    eexists. split; [reflexivity|]. cbn [cRoot cSections cFresh]. rewrite (onPart_at (eNode e) _ A i ty (hd ++ P) "entry" _ Q B ND2). cbn [app].
    destruct (String.eqb_spec value "") as [->|NE]; [congruence|]. cbn [negb] in *.
    destruct (GO (Tk i0 "name" n :: s1 ++ [Tk j "op" "="]) [] [Tk f "value" value] rest) with (vn := Some f) as [X1 X2].
    + cbn. rewrite <- app_assoc. reflexivity.
    + reflexivity.
    + repeat constructor. intros [].
    + cbn. intros k0 [<-|[]]. right. lia.
    + unfold valueOk. cbn [eValueNode eValue]. exists value, i0, s1, j, [], rest. repeat split; try assumption; [constructor|]. cbn. rewrite <- app_assoc. reflexivity.
    + assert (EQ : (Tk i0 "name" n :: s1 ++ [Tk j "op" "="]) ++ [Tk f "value" value] ++ rest = Tk i0 "name" n :: s1 ++ Tk j "op" "=" :: [Tk f "value" value] ++ rest) by (cbn; rewrite <- app_assoc; reflexivity). rewrite EQ in X1, X2. split; [exact X1|exact X2].
Qed.
End P.
