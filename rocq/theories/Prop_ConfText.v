(** C85: edits of a configuration file leave the other text as it was. *)
From Coq Require Import List Bool String Ascii Arith Lia.
From Verif Require Import Base Conf ConfSpec ConfProofs ConfInv ConfOps ConfEdits ConfAll ConfText Prop_Conf.
Import ListNotations.
Open Scope string_scope.
Open Scope nat_scope.
Open Scope list_scope.

Section Text.
Variable trim : string -> string.
Hypothesis trim_empty : trim "" = "".
Hypothesis trim_twice : forall x, trim (trim x) = trim x.
(** states of the editor of a file without repeats *)
Definition reached (c' : conf) : Prop := exists root fresh c es, document trim root /\ numbered root fresh /\ noRepeats trim root /\ load trim root fresh = Some c /\ performAll trim es c = Some c'.
Lemma reached_inv c' : reached c' -> inv trim (cRoot c') (cSections c') (cFresh c').
Proof. intros (root & fresh & c & es & D & N & R & L & H). destruct (load_inv trim trim_empty trim_twice root fresh D N R) as (secs & L' & I). rewrite L' in L. injection L as <-. exact (proj1 (history trim trim_empty trim_twice es _ _ _ _ I c' H)). Qed.
Lemma dotted_split name a b : dotted name a b -> splitName name = (a, b).
Proof.
  assert (ND : forall b, (forall x y, b <> x ++ "." ++ y)%string -> lastDot b = None).
  { clear. induction b as [|ch b IH]; intros F; [reflexivity|]. cbn [lastDot]. rewrite IH; [|intros x y ->; exact (F (String ch x) y eq_refl)]. destruct (Ascii.eqb_spec ch "."%char) as [->|]; [|reflexivity]. exfalso. exact (F "" b eq_refl). }
  intros [F [->| [-> ->]]]; unfold splitName; [|rewrite (ND _ F); reflexivity].
  assert (E : lastDot (a ++ "." ++ b)%string = Some (a, b)); [|rewrite E; reflexivity]. induction a as [|ch a IH]; [cbn; rewrite (ND _ F); reflexivity|]. cbn [append lastDot] in *. rewrite IH. reflexivity.
Qed.

(** Setting of an entry that is there changes the text of its value only; an entry that is not there is a new line. *)
Theorem set_keeps_text c c' name v s n : reached c -> dotted name s n -> hasSection trim (cRoot c) s -> perform trim (SetEntry name v) c = Some c' ->
  (exists a x y b, serialize (cRoot c) = (a ++ x ++ b)%string /\ serialize (cRoot c') = (a ++ y ++ b)%string /\ says trim (cRoot c) s n (trim x) /\ (y = v \/ y = x /\ trim x = trim v)) \/
  ((forall w, ~ says trim (cRoot c) s n w) /\ exists a b, serialize (cRoot c) = (a ++ b)%string /\ serialize (cRoot c') = (a ++ (n ++ "=" ++ v ++ nlText) ++ b)%string).
Proof.
  intros RC DN HS H. apply reached_inv in RC. destruct c as [root secs u f]. cbn [cRoot cSections cFresh] in *. cbn [perform] in H. unfold setEntry in H. rewrite (dotted_split _ _ _ DN) in H.
  pose proof (i_rec _ _ _ _ RC s) as C. destruct (get s secs) as [sc|] eqn:G; [|contradiction]. unfold addSection in H. cbn [cSections] in H. rewrite G in H. cbn [obind fst snd] in H.
  destruct (get n (sEntries sc)) as [e|] eqn:GE.
  - left. eapply set_known_text; eassumption.
  - right. destruct (set_new_text trim s n v root secs u f sc c' RC G GE H) as (a & b & X1 & X2 & X3). split; [exact X3|]. exists a, b. auto.
Qed.
(** Setting of an entry in a section that is not there adds the section first. *)
Theorem set_adds_section c name v s n : reached c -> dotted name s n ->
  perform trim (SetEntry name v) c = do c1 <- perform trim (AddSection s) c; perform trim (SetEntry name v) c1.
Proof.
  intros RC DN. apply reached_inv in RC. destruct c as [root secs u f]. cbn [cRoot cSections cFresh] in *. cbn [perform]. unfold setEntry. rewrite (dotted_split _ _ _ DN). pose proof (add_section trim trim_empty s root secs u f RC) as AD.
  destruct (addSection s (mkConf root secs u f)) as [[s' [r1 secs1 u1 f1]]|]; cbn [obind fst snd]; [|reflexivity]. destruct AD as (-> & _ & _ & sc & G). cbn [cSections] in G. unfold addSection. cbn [cSections]. rewrite G. reflexivity.
Qed.
(** Removing of an entry takes its line away, and nothing else. *)
Theorem remove_keeps_text c c' name s n : reached c -> dotted name s n -> perform trim (RemoveEntry name) c = Some c' ->
  ((forall w, ~ says trim (cRoot c) s n w) /\ cRoot c' = cRoot c) \/
  (exists a ks b w, serialize (cRoot c) = (a ++ textOf ks ++ b)%string /\ serialize (cRoot c') = (a ++ b)%string /\ entryOf trim n w ks /\ says trim (cRoot c) s n w).
Proof.
  intros RC DN H. apply reached_inv in RC. pose proof (inv_means trim trim_empty _ _ _ RC) as M. destruct c as [root secs u f]. cbn [cRoot cSections cFresh] in *. cbn [perform] in H. unfold removeEntry in H. rewrite (dotted_split _ _ _ DN) in H. cbn [cSections cRoot cFresh cUpdated] in H.
  assert (NO : meaning trim secs s n = None -> forall w, ~ says trim root s n w) by (intros E w X; apply M in X; congruence). unfold meaning in NO.
  destruct (get s secs) as [sc|] eqn:G; [|injection H as <-; left; auto]. destruct (get n (sEntries sc)) as [e|] eqn:GE; injection H as <-; [|left; auto]. right. cbn [cRoot]. eapply remove_text; eassumption.
Qed.
(** Adding of a section puts an empty line or a header somewhere, removing takes away the section and at most the empty line before it. *)
Theorem sections_keep_text c c' s : reached c ->
  (perform trim (AddSection s) c = Some c' -> exists a y b, serialize (cRoot c) = (a ++ b)%string /\ serialize (cRoot c') = (a ++ y ++ b)%string /\
    (y = "" \/ y = nlText \/ y = "[" ++ s ++ "]" ++ nlText \/ y = nlText ++ "[" ++ s ++ "]" ++ nlText)%string) /\
  (perform trim (RemoveSection s) c = Some c' -> (~ hasSection trim (cRoot c) s /\ cRoot c' = cRoot c) \/
    (exists a ks t ps b, serialize (cRoot c) = (a ++ textOf ks ++ textOf (topToks t) ++ b)%string /\ serialize (cRoot c') = (a ++ b)%string /\ sectionOf trim s ps t /\ In t (cRoot c) /\ Forall plain ks)).
Proof.
  intros RC. apply reached_inv in RC. destruct c as [root secs u f]. cbn [cRoot cSections cFresh] in *. cbn [perform]. split; intros H.
  - destruct (addSection s (mkConf root secs u f)) as [[s' c1]|] eqn:E; [|discriminate]. cbn [obind snd] in H. injection H as <-. eapply add_text; [exact (i_num _ _ _ _ RC)|exact E].
  - eapply remove_section_text; eassumption.
Qed.
End Text.

Module Example1.
Import Prop_Conf.Example1.
Definition start : conf := match load trim root 100 with Some c => c | None => mkConf [] [] false 0 end.
Example start_reached : reached trim start.
Proof. exists root, 100, start, []. split; [apply root_document|]. split; [apply root_numbered|]. split; [apply root_noRepeats|]. split; vm_compute; reflexivity. Qed.
Example section_there : hasSection trim (cRoot start) "s".
Proof. eexists _, _. split; [right; left; reflexivity|apply second_ok]. Qed.
Example names : dotted "s.c" "s" "c" /\ dotted "b" "" "b".
Proof. assert (X : forall ch a b, Ascii.eqb ch "."%char = false -> (String ch "" <> a ++ "." ++ b)%string) by (intros ch [|x [|y a]] b E H; inversion H; subst; discriminate). split; (split; [intros a b; apply X; reflexivity|]); [left; reflexivity|right; auto]. Qed.
Example one_value : (do c <- perform trim (SetEntry "s.c" "new") start; Some (serialize (cRoot c))) = Some ("a = 1" ++ nl ++ "b=" ++ nl ++ nl ++ "[s]" ++ nl ++ "c = new" ++ nl)%string. Proof. vm_compute. reflexivity. Qed.
Example one_section : (do c <- perform trim (RemoveSection "s") start; Some (serialize (cRoot c))) = Some ("a = 1" ++ nl ++ "b=" ++ nl)%string. Proof. vm_compute. reflexivity. Qed.
End Example1.

Print Assumptions set_keeps_text.
Print Assumptions set_adds_section.
Print Assumptions remove_keeps_text.
Print Assumptions sections_keep_text.
