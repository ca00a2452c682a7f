(** Edits that put in and take out entries and sections; loading. *)
From Coq Require Import List Bool String Ascii Arith Lia.
From Verif Require Import Base BaseProofs Conf ConfSpec ConfProofs ConfInv ConfOps.
Import ListNotations.
Open Scope string_scope.
Open Scope nat_scope.
Open Scope list_scope.

Lemma insert_spec ps x : match insertAfterLast ps x with Some r => exists P Q, ps = P ++ Q /\ r = P ++ x :: Q | None => forall p, In p ps -> isBody p = false end.
Proof.
  induction ps as [|p ps IH]; cbn; [intros ? []|]. destruct (insertAfterLast ps x) as [r|].
  - destruct IH as (P & Q & -> & ->). exists (p :: P), Q. auto.
  - destruct (isBody p) eqn:E; [exists [p], ps; auto|]. intros q [<-|HI]; auto.
Qed.
Lemma last_spec {A} (l : list A) : match last_ l with Some x => exists m, l = m ++ [x] | None => l = [] end.
Proof. unfold last_. destruct (rev l) as [|x m] eqn:E; cbn; [rewrite <- (rev_involutive l), E; reflexivity|]. exists (rev m). rewrite <- (rev_involutive l), E. reflexivity. Qed.
Lemma last_app {A} (l : list A) x : last_ (l ++ [x]) = Some x.
Proof. unfold last_. rewrite rev_app_distr. reflexivity. Qed.
Lemma prevOf_at i A ty ps B : NoDup (topIds (A ++ TNode i ty ps :: B)) -> prevOf i (A ++ TNode i ty ps :: B) = last_ A.
Proof.
  rewrite topIds_app. intros N. apply (nodup_parts (topIds A) [i] (topIds B)) in N as [_ N]. destruct (N i (or_introl eq_refl)) as [N1 N2]. clear N.
  assert (O : forall a l, ~ In i (topIds l) -> prevOf i (a :: l) = None).
  { intros a l. revert a. induction l as [|b l IH]; intros a H; [reflexivity|]. destruct b as [t|j ty' qs]; cbn in H |- *; [apply (IH (TTok t)), H|]. destruct (Nat.eqb_spec j i); [tauto|]. apply (IH (TNode j ty' qs)). tauto. }
  destruct A as [|a A].
  - cbn [app]. change (last_ []) with (@None top). apply O. exact N2.
  - revert a N1. induction A as [|b A IH]; intros a N1.
    + cbn. rewrite Nat.eqb_refl. reflexivity.
    + assert (LE : last_ (a :: b :: A) = last_ (b :: A)) by (unfold last_; cbn [rev]; rewrite <- app_assoc; destruct (rev A); reflexivity). rewrite LE, <- (IH b).
      * destruct b as [t|j ty' qs]; [reflexivity|]. cbn [app prevOf]. destruct (Nat.eqb_spec j i) as [->|NE]; [|reflexivity]. exfalso. apply N1. change (a :: TNode i ty' qs :: A) with ([a] ++ TNode i ty' qs :: A). rewrite topIds_app, in_app_iff. right. left. reflexivity.
      * intros X. apply N1. change (a :: b :: A) with ([a] ++ b :: A). rewrite topIds_app, in_app_iff. right. exact X.
Qed.

Section P.
Variable trim : string -> string.
Hypothesis trim_empty : trim "" = "".
Hypothesis trim_twice : forall x, trim (trim x) = trim x.
Notation entryOf := (entryOf trim).
Notation piece := (piece trim).
Notation sectionOf := (sectionOf trim).
Notation saysIn := (saysIn trim).
Notation says := (says trim).
Notation hasSection := (hasSection trim).
Notation document := (document trim).
Notation noRepeats := (noRepeats trim).
Notation entryNamed := (entryNamed trim).
Notation sectionNamed := (sectionNamed trim).
Notation inv := (inv trim).
Notation entriesOk := (entriesOk trim).
Notation valueOk := (valueOk trim).
Notation distinctParts := (distinctParts trim).
Notation outcome := (outcome trim).

Theorem set_new s n value root secs u f sc : inv root secs f -> get s secs = Some sc -> get n (sEntries sc) = None ->
  exists c', sectionSetEntry trim s n value (mkConf root secs u f) = Some c' /\ inv (cRoot c') (cSections c') (cFresh c') /\ outcome root (cRoot c') s n (Some (trim value)).
Proof.
  intros I G GE. destruct (found trim _ _ _ _ _ I G) as (A & i & ty & hd & ps & B & -> & S & F & K & SN & EO & HD). destruct (i_num _ _ _ _ I) as (ND1 & _).
  unfold sectionSetEntry. cbn [cSections cFresh cRoot cUpdated]. rewrite G. cbn [obind]. rewrite GE, SN. cbn [last_ rev app nth_error obind]. rewrite (findTop_at _ _ _ _ _ ND1). cbn [obind].
  set (vs := if negb (String.eqb value "") then [Tk (3 + f) "value" value] else []). set (ks := Tk (1 + f) "name" n :: Tk (2 + f) "op" "=" :: vs ++ [nlNode (4 + f)]). set (node := PNode f "entry" ks).
  rewrite (onTop_at _ _ _ _ _ _ ND1). cbn [app].
  assert (PL : exists P Q, ps = P ++ Q /\ match insertAfterLast (hd ++ ps) node with Some r => r | None => node :: hd ++ ps end = hd ++ P ++ [node] ++ Q).
  { pose proof (insert_spec ps node) as X. destruct HD as [(-> & _)|(h & hk & -> & _)]; cbn [app insertAfterLast]; destruct (insertAfterLast ps node) as [r|].
    - destruct X as (P & Q & -> & ->). exists P, Q. auto.
    - exists [], ps. auto.
    - destruct X as (P & Q & -> & ->). exists P, Q. auto.
    - exists [], ps. auto. }
  destruct PL as (P & Q & -> & ->).
  set (vn := if negb (String.eqb value "") then Some (3 + f) else None). set (v := if negb (String.eqb value "") then trim value else "").
  assert (V : valueOk n ks (mkEntry f vn v)).
  { unfold valueOk, vn, v, ks, vs. cbn [eValueNode eValue]. destruct (negb (String.eqb value "")); cbn [app].
    - exists value, (1 + f), [], (2 + f), [], [nlNode (4 + f)]. repeat split; auto. constructor; [right; reflexivity|constructor].
    - split; [reflexivity|]. exists (1 + f), [], (2 + f), [nlNode (4 + f)]. repeat split; auto. constructor; [right; reflexivity|constructor]. }
  pose proof (valueOk_entry trim trim_empty _ _ _ V) as EK. cbn [eValue] in EK.
  assert (NX : entryNamed n node) by (exists f, ks; eauto).
  unfold addEntryNode. cbn [cSections cRoot cUpdated cFresh]. rewrite get_put, String.eqb_refl. cbn [obind sEntries sNodes sUpdated].
  assert (E1 : nth_error (searchIn "name" ks) 0 = Some (Tk (1 + f) "name" n)) by (destruct (entry_name trim _ _ _ EK) as (i0 & E); unfold ks, vs in *; destruct (negb (String.eqb value "")); reflexivity). rewrite E1. cbn [obind ttext]. rewrite GE.
  assert (E2 : match nth_error (searchIn "value" ks) 0 with Some t => (Some (tid t), trim (ttext t)) | None => (None, "") end = (vn, v)) by (unfold ks, vs, vn, v; destruct (negb (String.eqb value "")); reflexivity). rewrite E2.
  eexists. split; [reflexivity|]. cbn [cRoot cSections cFresh].
  destruct (change_entry trim trim_empty A i ty hd B s n P [] [node] Q secs sc f (5 + f) (put n (mkEntry f vn v) (sEntries sc)) true) as [X1 X2]; try assumption.
  - apply K. cbn [app] in *. apply Forall_app in F as [F1 F2]. apply Forall_app. split; [assumption|]. constructor; [econstructor; exact EK|assumption].
  - rewrite app_assoc. apply (numbered_parts A i ty (hd ++ P) [] [node] Q B f); [rewrite <- app_assoc; exact (i_num _ _ _ _ I)|lia| | | |].
    + constructor; [intros []|constructor].
    + unfold node, ks, vs. destruct (negb (String.eqb value "")); cbn; repeat constructor; cbn; intuition lia.
    + cbn. intros k [<-|[]]. right. lia.
    + unfold node, ks, vs. destruct (negb (String.eqb value "")); cbn; intros k HK; right; intuition lia.
  - intros p HI X. pose proof (EO n) as EN. rewrite GE in EN. destruct (named_says trim (P ++ Q) n p) as (w & W); [apply in_or_app; exact HI|exact X|]. exact (EN w W).
  - intros p [].
  - intros p [<-|[]]. exact NX.
  - cbn. lia.
  - intros n' NE. rewrite get_put. destruct (String.eqb_spec n' n); [contradiction|reflexivity].
  - rewrite get_put, String.eqb_refl. exists ks. auto.
  - rewrite get_put, String.eqb_refl in X2. cbn [eValue] in X2. assert (EV : trim v = trim value) by (unfold v; destruct (String.eqb_spec value "") as [->|]; cbn [negb]; [reflexivity|apply trim_twice]). rewrite EV in X2.
    split; [|exact X2]. eapply inv_ext; [exact X1| |lia]. intros x. rewrite !get_put. destruct (String.eqb x s); reflexivity.
Qed.

Theorem remove_known s n root secs f sc e b : inv root secs f -> get s secs = Some sc -> get n (sEntries sc) = Some e ->
  inv (onPart (eNode e) (fun _ => []) root) (put s (mkSec (sNodes sc) (del n (sEntries sc)) b) secs) f /\ outcome root (onPart (eNode e) (fun _ => []) root) s n None.
Proof.
  intros I G GE. destruct (found trim _ _ _ _ _ I G) as (A & i & ty & hd & ps & B & -> & S & F & K & SN & EO & HD). destruct (i_num _ _ _ _ I) as (_ & ND2 & _). pose proof (proj2 (i_rep _ _ _ _ I) _ _ _ (in_elt _ _ _) S) as D.
  pose proof (EO n) as EN. rewrite GE in EN. destruct EN as (ks & HI & V). apply in_split in HI as (P & Q & ->). pose proof (valueOk_entry trim trim_empty _ _ _ V) as EK.
  assert (NP : entryNamed n (PNode (eNode e) "entry" ks)) by (eexists _, _, _; eauto). rewrite SN.
  rewrite app_assoc in ND2 |- *. rewrite (onPart_at _ _ _ _ _ _ _ _ _ _ ND2). rewrite <- !app_assoc.
  destruct (change_entry trim trim_empty A i ty hd B s n P [PNode (eNode e) "entry" ks] [] Q secs sc f f (del n (sEntries sc)) b) as [X1 X2]; try assumption.
  - apply K. apply Forall_app in F as [F1 F2]. inversion F2; subst. apply Forall_app. split; assumption.
  - rewrite app_assoc. apply (numbered_parts A i ty (hd ++ P) [PNode (eNode e) "entry" ks] [] Q B f); [rewrite <- app_assoc; exact (i_num _ _ _ _ I)|lia|constructor|constructor|intros ? []|intros ? []].
  - exact (only_here trim _ _ _ _ D NP).
  - intros p [<-|[]]. exact NP.
  - intros p [].
  - cbn. lia.
  - intros n' NE. rewrite get_del. destruct (String.eqb_spec n' n); [contradiction|reflexivity].
  - rewrite get_del, String.eqb_refl. reflexivity.
  - rewrite get_del, String.eqb_refl in X2. split; [exact X1|exact X2].
Qed.

(** ** Sections *)
Lemma quiet_inv A i ty hd B s P l l' Q secs f f' : inv (A ++ TNode i ty (hd ++ P ++ l ++ Q) :: B) secs f -> sectionOf s (P ++ l ++ Q) (TNode i ty (hd ++ P ++ l ++ Q)) -> sectionOf s (P ++ l' ++ Q) (TNode i ty (hd ++ P ++ l' ++ Q)) ->
  (forall p n, In p l \/ In p l' -> ~ entryNamed n p) -> numbered (A ++ TNode i ty (hd ++ P ++ l' ++ Q) :: B) f' -> f <= f' ->
  inv (A ++ TNode i ty (hd ++ P ++ l' ++ Q) :: B) secs f' /\ (forall s' n v, says (A ++ TNode i ty (hd ++ P ++ l' ++ Q) :: B) s' n v <-> says (A ++ TNode i ty (hd ++ P ++ l ++ Q) :: B) s' n v) /\
  (forall s', hasSection (A ++ TNode i ty (hd ++ P ++ l' ++ Q) :: B) s' <-> hasSection (A ++ TNode i ty (hd ++ P ++ l ++ Q) :: B) s').
Proof.
  intros I S S' L N LE. pose proof (i_rep _ _ _ _ I) as R. pose proof (proj2 R _ _ _ (in_elt _ _ _) S) as D. destruct (change_says trim _ _ _ _ _ _ _ R S S') as (Y1 & Y2 & Y3 & Y4).
  pose proof (i_rec _ _ _ _ I s) as C. destruct (get s secs) as [sc|] eqn:G; [|exfalso; apply C; eexists _, _; split; [apply in_elt|exact S]].
  destruct C as (t & ps & HI & ST & SN & EO). pose proof (unique_section trim _ _ _ _ _ _ R HI (in_elt _ _ _) ST S) as ->. destruct (section_det trim _ _ _ _ _ ST S) as [_ ->]. cbn [topId] in SN.
  destruct (parts_quiet trim trim_empty P l l' Q _ D L EO) as (D' & EO' & X). split; [|split].
  - eapply inv_ext; [exact (change_inv trim A _ B s _ _ _ secs f f' (sEntries sc) (sUpdated sc) I S S' eq_refl N D' EO')| |lia]. intros x. rewrite get_put. destruct (String.eqb_spec x s) as [->|_]; [|reflexivity]. rewrite G. destruct sc; cbn in *; subst; reflexivity.
  - intros s' n v. destruct (String.eqb_spec s' s) as [->|NE]; [rewrite Y2, Y3; apply X|apply Y1; exact NE].
  - exact Y4.
Qed.
Lemma no_says ps : (forall p n, In p ps -> ~ entryNamed n p) -> forall n v, ~ saysIn ps n v.
Proof. intros H n v X. apply says_named in X as (p & HI & E). exact (H _ _ HI E). Qed.
Lemma quiet_distinct ps : (forall p n, In p ps -> ~ entryNamed n p) -> distinctParts ps.
Proof. intros H. induction ps as [|a r IH]; constructor; [|apply IH; intros; apply H; right; assumption]. apply Forall_forall. intros x _ n Mx. exfalso. exact (H _ _ (or_introl eq_refl) Mx). Qed.
Lemma sep_no_entry i n : ~ entryNamed n (sepNode i).
Proof. intros (? & ? & ? & X & _). discriminate. Qed.
Lemma sep_piece i : piece (sepNode i).
Proof. constructor. constructor; [right; reflexivity|constructor]. Qed.

Lemma insert_inv A t B s ps secs f f' b : inv (A ++ B) secs f -> sectionOf s ps t -> ~ hasSection (A ++ B) s -> (forall p n, In p ps -> ~ entryNamed n p) -> numbered (A ++ t :: B) f' ->
  inv (A ++ t :: B) (put s (mkSec [topId t] [] b) secs) f' /\ (forall s' n v, says (A ++ t :: B) s' n v <-> says (A ++ B) s' n v).
Proof.
  intros [D N R C] S NH NE N'.
  assert (OT : forall u, In u (A ++ t :: B) <-> u = t \/ In u (A ++ B)) by (intros u; rewrite !in_app_iff; cbn; intuition). split.
  - constructor; [|exact N'| |].
    + apply Forall_app in D as [D1 D2]. apply Forall_app. split; [exact D1|]. constructor; [econstructor; exact S|exact D2].
    + destruct R as [R1 R2]. apply fop_app in R1 as (R3 & R4 & R5). split.
      * apply fop_app. split; [exact R3|].
        assert (X : forall u x, In u (A ++ B) -> sectionNamed x t -> sectionNamed x u -> False) by (intros u x HU (qs & X1) (qs' & X2); destruct (section_det trim _ _ _ _ _ S X1) as [<- _]; apply NH; exists u, qs'; auto).
        split; [constructor; [apply Forall_forall; intros u HU x X1 X2; eapply X; [apply in_or_app; right; exact HU|exact X1|exact X2]|exact R4]|].
        intros x y HX [<-|HY]; [intros z X1 X2; eapply X; [apply in_or_app; left; exact HX|exact X2|exact X1]|exact (R5 x y HX HY)].
      * intros u x qs HU HS. apply OT in HU as [->|HU]; [destruct (section_det trim _ _ _ _ _ S HS) as [_ <-]; apply quiet_distinct; exact NE|exact (R2 u x qs HU HS)].
    + intros x. rewrite get_put. destruct (String.eqb_spec x s) as [->|NX].
      * exists t, ps. split; [apply in_elt|]. repeat split; [exact S|]. intros n. cbn. apply no_says. exact NE.
      * specialize (C x). destruct (get x secs) as [sc|]; [destruct C as (u & qs & HU & X); exists u, qs; split; [apply OT; auto|exact X]|]. intros (u & qs & HU & X). apply OT in HU as [->|HU]; [apply NX; symmetry; eapply section_det; eassumption|]. apply C. exists u, qs. auto.
  - intros s' n v. split; intros (u & qs & HU & X & Y).
    + apply OT in HU as [->|HU]; [|exists u, qs; auto]. destruct (section_det trim _ _ _ _ _ S X) as [_ <-]. exfalso. exact (no_says _ NE _ _ Y).
    + exists u, qs. split; [apply OT; auto|auto].
Qed.
Lemma drop_inv A t B s ps secs f : inv (A ++ t :: B) secs f -> sectionOf s ps t ->
  inv (A ++ B) (del s secs) f /\ (forall s' n v, says (A ++ B) s' n v <-> s' <> s /\ says (A ++ t :: B) s' n v).
Proof.
  intros [D N R C] S.
  assert (OT : forall u, In u (A ++ t :: B) <-> u = t \/ In u (A ++ B)) by (intros u; rewrite !in_app_iff; cbn; intuition).
  destruct R as [R1 R2]. apply fop_app in R1 as (R3 & R4 & R5). inversion R4 as [|? ? R6 R7]; subst.
  assert (OUT : forall u qs, In u (A ++ B) -> sectionOf s qs u -> False).
  { intros u qs HI HU. rewrite in_app_iff in HI. destruct HI as [HI|HI]; [eapply (R5 u t HI (or_introl eq_refl) s)|eapply (proj1 (Forall_forall _ _) R6 u HI s)]; eexists; eassumption. }
  split.
  - constructor.
    + apply Forall_app in D as [D1 D2]. inversion D2; subst. apply Forall_app. auto.
    + apply (numbered_tops A [t] [] B f f N); [lia|apply NoDup_nil|apply NoDup_nil|apply NoDup_nil| | |]; intros ? [].
    + split; [apply fop_app; split; [exact R3|split; [exact R7|intros x y HX HY; apply R5; [exact HX|right; exact HY]]]|]. intros u x qs HU. apply R2, OT. auto.
    + intros x. rewrite get_del. destruct (String.eqb_spec x s) as [->|NX]; [intros (u & qs & HU & X); exact (OUT _ _ HU X)|]. specialize (C x). destruct (get x secs) as [sc|].
      * destruct C as (u & qs & HU & X & Y). exists u, qs. apply OT in HU as [->|HU]; [exfalso; apply NX; eapply section_det; eassumption|auto].
      * intros (u & qs & HU & X). apply C. exists u, qs. split; [apply OT; auto|exact X].
  - intros s' n v. split.
    + intros (u & qs & HU & X & Y). split; [intros ->; exact (OUT _ _ HU X)|]. exists u, qs. split; [apply OT; auto|auto].
    + intros (NE & u & qs & HU & X & Y). apply OT in HU as [->|HU]; [exfalso; apply NE; eapply section_det; eassumption|]. exists u, qs. auto.
Qed.
End P.
