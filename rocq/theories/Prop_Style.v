(** C86-C88: the style checker of examples/style-check. *)
From Coq Require Import List Bool String Ascii Arith ZArith Lia Permutation Sorted.
From Verif Require Import Base Style StyleSpec.
Import ListNotations.
Open Scope string_scope.
Open Scope nat_scope.
Open Scope list_scope.

Lemma nget_nset {A} k k' (v : A) m : nget k' (nset k v m) = if k' =? k then Some v else nget k' m.
Proof.
  induction m as [|[j x] m IH]; cbn.
  - rewrite (Nat.eqb_sym k k'). reflexivity.
  - destruct (Nat.eqb_spec j k) as [->|NE]; cbn; [rewrite (Nat.eqb_sym k k'); destruct (k' =? k); reflexivity|]. rewrite IH. destruct (Nat.eqb_spec j k') as [->|]; [|reflexivity]. destruct (Nat.eqb_spec k' k); [contradiction|reflexivity].
Qed.
Lemma keys_nset {A} k (v : A) m j : In j (map fst (nset k v m)) <-> j = k \/ In j (map fst m).
Proof. induction m as [|[i x] m IH]; cbn; [intuition|]. destruct (Nat.eqb_spec i k) as [->|NE]; cbn; [intuition|rewrite IH; intuition]. Qed.
Lemma nodup_nset {A} k (v : A) m : NoDup (map fst m) -> NoDup (map fst (nset k v m)).
Proof. induction m as [|[i x] m IH]; cbn; intros D; [repeat constructor; intros []|]. inversion D; subst. destruct (Nat.eqb_spec i k) as [->|NE]; cbn; [constructor; assumption|]. constructor; [rewrite keys_nset; intuition|auto]. Qed.
Lemma nget_key {A} k (m : list (nat * A)) : In k (map fst m) <-> exists v, nget k m = Some v.
Proof. induction m as [|[i x] m IH]; cbn; [split; [intros []|intros [? X]; discriminate]|]. destruct (Nat.eqb_spec i k) as [->|NE]; [split; eauto|]. rewrite <- IH. intuition. Qed.

Definition cell (rm : reportMap) (l c : nat) : option string := match nget l rm with Some lm => nget c lm | None => None end.
Definition wf (rm : reportMap) : Prop := NoDup (map fst rm) /\ forall l lm, nget l rm = Some lm -> NoDup (map fst lm) /\ lm <> [].
Lemma report_cell rm l c m l' c' : cell (report rm (l, c, m)) l' c' = if (l' =? l) && (c' =? c) then Some m else cell rm l' c'.
Proof.
  unfold cell, report. destruct (nget l rm) as [lm|] eqn:G; rewrite nget_nset; destruct (Nat.eqb_spec l' l) as [->|NE]; cbn [andb]; try reflexivity.
  - rewrite nget_nset, G. reflexivity.
  - rewrite G. cbn. rewrite (Nat.eqb_sym c c'). reflexivity.
Qed.
Lemma report_wf rm r : wf rm -> wf (report rm r).
Proof.
  destruct r as [[l c] m]. intros [D W]. unfold report. destruct (nget l rm) as [lm|] eqn:G; (split; [apply nodup_nset, D|]); intros l' lm'; rewrite nget_nset; destruct (l' =? l); [intros [= <-]|apply W|intros [= <-]|apply W].
  - split; [apply nodup_nset, (W _ _ G)|]. destruct lm as [|[a b] lm]; cbn; [discriminate|destruct (a =? c); discriminate].
  - split; [repeat constructor; intros []|discriminate].
Qed.
Lemma collect_snoc calls r : collect (calls ++ [r]) = report (collect calls) r.
Proof. unfold collect. rewrite fold_left_app. reflexivity. Qed.
Lemma collect_wf calls : wf (collect calls).
Proof. induction calls as [|r calls IH] using rev_ind; [split; [constructor|discriminate]|]. rewrite collect_snoc. apply report_wf, IH. Qed.
Lemma collect_cell calls l c m : cell (collect calls) l c = Some m <-> lastAt calls l c m.
Proof.
  revert m. induction calls as [|[[l0 c0] m0] calls IH] using rev_ind; intros m.
  - split; [discriminate|]. intros ([|] & ? & E & _); discriminate.
  - rewrite collect_snoc, report_cell. destruct (Nat.eqb_spec l l0) as [->|NL]; cbn [andb]; [destruct (Nat.eqb_spec c c0) as [->|NC]|].
    + split.
      * intros [= <-]. exists calls, []. auto.
      * intros (b & a & E & N). destruct a as [|x a] using rev_ind; [apply app_inj_tail in E as [_ E]; congruence|]. change (calls ++ [(l0, c0, m0)] = b ++ ((l0, c0, m) :: a) ++ [x]) in E. rewrite app_assoc in E. apply app_inj_tail in E as [_ <-]. exfalso. apply (N m0). apply in_or_app. right. left. reflexivity.
    + rewrite IH. split; intros (b & a & E & N).
      * exists b, (a ++ [(l0, c0, m0)]). rewrite E, <- app_assoc. split; [reflexivity|]. intros m' H. apply in_app_or in H as [H|[H|[]]]; [exact (N m' H)|congruence].
      * destruct a as [|x a _] using rev_ind; [apply app_inj_tail in E as [_ E]; congruence|]. change (calls ++ [(l0, c0, m0)] = b ++ ((l0, c, m) :: a) ++ [x]) in E. rewrite app_assoc in E. apply app_inj_tail in E as [-> _]. exists b, a. split; [reflexivity|]. intros m' H. apply (N m'). apply in_or_app. auto.
    + rewrite IH. split; intros (b & a & E & N).
      * exists b, (a ++ [(l0, c0, m0)]). rewrite E, <- app_assoc. split; [reflexivity|]. intros m' H. apply in_app_or in H as [H|[H|[]]]; [exact (N m' H)|congruence].
      * destruct a as [|x a _] using rev_ind; [apply app_inj_tail in E as [_ E]; congruence|]. change (calls ++ [(l0, c0, m0)] = b ++ ((l, c, m) :: a) ++ [x]) in E. rewrite app_assoc in E. apply app_inj_tail in E as [-> _]. exists b, a. split; [reflexivity|]. intros m' H. apply (N m'). apply in_or_app. auto.
Qed.

Section Reports.
Variable shuffle : list nat -> list nat.
Variable sortInts : list nat -> list nat.
(** a map gives its keys in any order; sort.Ints sorts *)
Hypothesis shuffle_ok : forall l, Permutation (shuffle l) l.
Hypothesis sort_ok : forall l, Permutation (sortInts l) l /\ Sorted le (sortInts l).

Lemma sorted_keys l : NoDup l -> (forall x, In x (sortInts (shuffle l)) <-> In x l) /\ StronglySorted lt (sortInts (shuffle l)).
Proof.
  intros D. destruct (sort_ok (shuffle l)) as [P S]. assert (PL : Permutation (sortInts (shuffle l)) l) by (rewrite P; apply shuffle_ok). split.
  - intros x. split; apply Permutation_in; [exact PL|symmetry; exact PL].
  - assert (D' : NoDup (sortInts (shuffle l))) by (eapply Permutation_NoDup; [symmetry; exact PL|exact D]). apply Sorted_StronglySorted in S; [|intros a b c; lia]. revert D' S. generalize (sortInts (shuffle l)) as k. induction k as [|a k IH]; intros D' S; [constructor|]. inversion D'; inversion S; subst. constructor; [auto|]. rewrite Forall_forall in *. intros x HX. match goal with H : forall x, In x k -> a <= x |- _ => pose proof (H x HX) end. assert (a <> x) by (intros ->; contradiction). lia.
Qed.
Lemma sorted_app (l m : list place_report) : StronglySorted earlier l -> StronglySorted earlier m -> (forall x y, In x l -> In y m -> earlier x y) -> StronglySorted earlier (l ++ m).
Proof. induction l as [|a l IH]; intros S1 S2 H; [exact S2|]. inversion S1; subst. cbn. constructor; [apply IH; auto; intros; apply H; [right|]; assumption|]. apply Forall_app. split; [assumption|]. apply Forall_forall. intros y HY. apply H; [left; reflexivity|exact HY]. Qed.

(** C86, but for messages that share a place (reports_lost_refuted): reports are listed in the order of places, each place once, with the message reported for it last. *)
Theorem reports_listed_partial calls : let res := flatten shuffle sortInts (collect calls) in
  (forall l c m, In (l, c, m) res <-> lastAt calls l c m) /\ StronglySorted earlier res.
Proof.
  cbn zeta. pose proof (collect_wf calls) as [D W]. assert (CE := collect_cell calls). revert D W CE. generalize (collect calls) as rm. intros rm D W CE. destruct (sorted_keys _ D) as [KI KS]. unfold flatten.
  set (row := fun line => match nget line rm with None => [] | Some lm => flat_map (fun col => match nget col lm with Some m => [(line, col, m)] | None => [] end) (sortInts (shuffle (map fst lm))) end).
  assert (RI : forall line l c m, In (l, c, m) (row line) <-> l = line /\ cell rm l c = Some m).
  { intros line l c m. unfold row, cell. destruct (nget line rm) as [lm|] eqn:G.
    - destruct (sorted_keys _ (proj1 (W _ _ G))) as [CI _]. rewrite in_flat_map. split.
      + intros (col & HC & H). destruct (nget col lm) as [m'|] eqn:GM; [|destruct H]. destruct H as [H|[]]. injection H as <- <- <-. rewrite G. auto.
      + intros [-> H]. rewrite G in H. exists c. rewrite H. split; [apply CI, nget_key; eauto|left; reflexivity].
    - split; [intros []|]. intros [-> H]. rewrite G in H. discriminate. }
  split.
  - intros l c m. rewrite <- CE, in_flat_map. split; [intros (line & _ & H); apply RI in H; tauto|]. intros H. exists l. split; [|apply RI; auto]. apply KI, nget_key. unfold cell in H. destruct (nget l rm); [eauto|discriminate].
  - assert (RS : forall line, StronglySorted earlier (row line)).
    { intros line. unfold row. destruct (nget line rm) as [lm|] eqn:G; [|constructor]. destruct (sorted_keys _ (proj1 (W _ _ G))) as [_ CS]. revert CS. generalize (sortInts (shuffle (map fst lm))) as cols. induction cols as [|c cols IH]; intros CS; [constructor|]. inversion CS as [|? ? CS' F]; subst. cbn [flat_map]. apply sorted_app; [destruct (nget c lm); repeat constructor|auto|].
      intros x y HX HY. destruct (nget c lm); [|destruct HX]. destruct HX as [<-|[]]. apply in_flat_map in HY as (c' & HC & HY). destruct (nget c' lm); [|destruct HY]. destruct HY as [<-|[]]. right. rewrite Forall_forall in F. split; [reflexivity|apply F, HC]. }
    revert KS. generalize (sortInts (shuffle (map fst rm))) as lines. induction lines as [|l lines IH]; intros KS; [constructor|]. inversion KS as [|? ? KS' F]; subst. cbn [flat_map]. apply sorted_app; [apply RS|auto|].
    intros [[lx cx] mx] [[ly cy] my] HX HY. apply RI in HX as [-> _]. apply in_flat_map in HY as (l' & HL & HY). apply RI in HY as [-> _]. left. rewrite Forall_forall in F. apply F, HL.
Qed.
(** Something is listed whenever something is reported. *)
Theorem nothing_listed calls : flatten shuffle sortInts (collect calls) = [] <-> calls = [].
Proof.
  destruct (reports_listed_partial calls) as [H _]. split.
  - intros E. rewrite E in H. destruct calls as [|[[l c] m] calls _] using rev_ind; [reflexivity|]. exfalso. apply (H l c m). exists calls, []. auto.
  - intros ->. destruct (flatten _ _ _) as [|[[l c] m] r]; [reflexivity|]. destruct (proj1 (H l c m) (or_introl eq_refl)) as ([|] & ? & E & _); discriminate.
Qed.

(** C87: no complaint about an operator is made exactly when spaces stand where they should. *)
Lemma space_dec o : isSpace o = true <-> exists t, o = Some t /\ sType t = "space".
Proof. destruct o as [t|]; cbn; [|split; [discriminate|intros (? & ? & _); discriminate]]. rewrite String.eqb_eq. split; [eauto|intros (x & [= <-] & H); exact H]. Qed.
Lemma op_empty prev n next : opReports prev n next = [] <-> ((isSpace prev = true <-> sText n = "{") /\ (isSpace next = true <-> sText n = "," \/ sText n = "}")).
Proof.
  unfold opReports. destruct (isSpace prev), (isSpace next).
  all: destruct (String.eqb_spec (sText n) "[") as [E1|N1]; [rewrite E1; cbn; split; [intros H; try discriminate H; intuition discriminate|intros [[A B] [C D]]; try (exfalso; try (destruct (C eq_refl); discriminate); try (specialize (A eq_refl); discriminate); fail); reflexivity]|].
  all: destruct (String.eqb_spec (sText n) "]") as [E2|N2]; [rewrite E2; cbn; split; [intros H; try discriminate H; intuition discriminate|intros [[A B] [C D]]; try (exfalso; try (destruct (C eq_refl); discriminate); try (specialize (A eq_refl); discriminate); fail); reflexivity]|].
  all: destruct (String.eqb_spec (sText n) ";") as [E3|N3]; [rewrite E3; cbn; split; [intros H; try discriminate H; intuition discriminate|intros [[A B] [C D]]; try (exfalso; try (destruct (C eq_refl); discriminate); try (specialize (A eq_refl); discriminate); fail); reflexivity]|].
  all: destruct (String.eqb_spec (sText n) ",") as [E4|N4]; [rewrite E4; cbn; split; [intros H; try discriminate H; intuition discriminate|intros [[A B] [C D]]; try (exfalso; try (specialize (D (or_introl eq_refl)); discriminate); try (specialize (A eq_refl); discriminate); fail); reflexivity]|].
  all: destruct (String.eqb_spec (sText n) "}") as [E5|N5]; [rewrite E5; cbn; split; [intros H; try discriminate H; intuition discriminate|intros [[A B] [C D]]; try (exfalso; try (specialize (D (or_intror eq_refl)); discriminate); try (specialize (A eq_refl); discriminate); fail); reflexivity]|].
  all: destruct (String.eqb_spec (sText n) "{") as [E6|N6]; [rewrite E6; cbn; split; [intros H; try discriminate H; intuition discriminate|intros [[A B] [C D]]; try (exfalso; try (destruct (C eq_refl); discriminate); try (specialize (B eq_refl); discriminate); fail); reflexivity]|].
  all: cbn; split; [intros H; try discriminate H; intuition congruence|intros [[A B] [C D]]; try (exfalso; try (destruct (C eq_refl); congruence); try (specialize (A eq_refl); congruence); fail); reflexivity].
Qed.
Lemma last_of (l : list stok) : match rev l with [] => l = [] | t :: _ => exists l', l = l' ++ [t] end.
Proof. destruct l as [|t l _] using rev_ind; [reflexivity|]. rewrite rev_app_distr. cbn. eauto. Qed.
Lemma spaces_from toks : forall before, spacesFrom (hd_error (rev before)) toks = [] <-> forall b t a, toks = b ++ t :: a -> sType t = "op" -> (endsWithSpace (before ++ b) <-> sText t = "{") /\ (startsWithSpace a <-> sText t = "," \/ sText t = "}").
Proof.
  induction toks as [|t toks IH]; intros before; cbn [spacesFrom].
  - split; [intros _ [|] ? ? E; discriminate|reflexivity].
  - assert (EE : forall l, endsWithSpace l <-> isSpace (hd_error (rev l)) = true).
    { intros l. rewrite space_dec. pose proof (last_of l) as L. split.
      - intros (l' & x & -> & H). rewrite rev_app_distr. cbn. eauto.
      - intros (x & E & H). destruct (rev l) as [|y r]; [discriminate|]. injection E as ->. destruct L as (l' & ->). exists l', x. auto. }
    assert (SS : forall l, startsWithSpace l <-> isSpace (hd_error l) = true).
    { intros l. rewrite space_dec. split; [intros (x & l' & -> & H); cbn; eauto|]. intros (x & E & H). destruct l as [|y l]; [discriminate|]. injection E as ->. exists x, l. auto. }
    pose proof (IH (before ++ [t])) as IH'. rewrite rev_app_distr in IH'. cbn [rev app hd_error] in IH'. split.
    + intros H. apply app_eq_nil in H as [H1 H2]. intros b x a E TX. destruct b as [|y b].
      * cbn in E. injection E as <- <-. rewrite TX in H1. cbn in H1. apply op_empty in H1. rewrite app_nil_r, EE, SS. exact H1.
      * cbn in E. injection E as <- ->. pose proof (proj1 IH' H2 b x a eq_refl TX) as X. rewrite <- app_assoc in X. exact X.
    + intros H. assert (H2 : spacesFrom (Some t) toks = []) by (apply IH'; intros b x a -> TX; rewrite <- app_assoc; apply H; auto). rewrite H2, app_nil_r. destruct (String.eqb_spec (sType t) "op") as [TX|]; [|reflexivity]. apply op_empty. rewrite <- EE, <- SS. pose proof (H [] t toks eq_refl TX) as X. rewrite app_nil_r in X. exact X.
Qed.
Theorem spaces_checked toks : incorrectSpaces toks = [] <-> spacedWell toks.
Proof. unfold incorrectSpaces. apply (spaces_from toks []). Qed.
Lemma has_tab s : hasTab s = true <-> contains s tab.
Proof.
  induction s as [|c s IH]; cbn; [split; [discriminate|intros ([|] & b & E); discriminate]|]. rewrite orb_true_iff, IH, Ascii.eqb_eq. split.
  - intros [->|(a & b & ->)]; [exists "", s; reflexivity|exists (String c a), b; reflexivity].
  - intros ([|x a] & b & E); cbn in E; injection E as -> ->; [left; reflexivity|right; exists a, b; reflexivity].
Qed.
Lemma tabs_empty toks : tabs toks = [] <-> noTabs toks.
Proof.
  unfold tabs, noTabs. induction toks as [|t toks IH]; [split; [intros _ t []|reflexivity]|]. cbn [filter]. destruct (String.eqb (sType t) "indent" || String.eqb (sType t) "space") eqn:E; cbn [filter].
  - apply orb_true_iff in E. rewrite !String.eqb_eq in E. destruct (hasTab (sText t)) eqn:T; cbn [map].
    + split; [discriminate|]. intros H. exfalso. apply (H t); [left; reflexivity|tauto|apply has_tab, T].
    + rewrite IH. split; [|intros H x HX; apply H; right; exact HX]. intros H x [<-|HX] TX; [|auto]. rewrite <- has_tab, T. discriminate.
  - apply orb_false_iff in E. rewrite !String.eqb_neq in E. rewrite IH. split; [|intros H x HX; apply H; right; exact HX]. intros H x [<-|HX] TX; [tauto|auto].
Qed.
(** C87: a file passes exactly when it ends with a line end, spaces of operators are right, there are no tabs, and the other checks have nothing to say.
    Missing for the full property: what the five checks that look at nodes say; here they may say anything. *)
Theorem style_passes_partial toks multiple align literals indents trailing : toks <> [] -> exists calls, inspectCode toks multiple align literals indents trailing = Some calls /\
  (flatten shuffle sortInts (collect calls) = [] <-> endsWithNewline toks /\ spacedWell toks /\ noTabs toks /\ multiple = [] /\ align = [] /\ literals = [] /\ indents = [] /\ trailing = []).
Proof.
  intros NE. unfold inspectCode, noFinalNl. pose proof (last_of toks) as L. destruct (rev toks) as [|t r]; [contradiction|]. destruct L as (l & EL). cbn [obind]. eexists. split; [reflexivity|]. rewrite nothing_listed, <- spaces_checked, <- tabs_empty.
  assert (EN : endsWithNewline toks <-> sType t = "indent") by (split; [intros (l' & x & E & H); rewrite EL in E; apply app_inj_tail in E as [_ ->]; exact H|intros H; exists l, t; auto]). rewrite EN.
  destruct (String.eqb_spec (sType t) "indent") as [TI|TI]; cbn [negb app]; [|split; [discriminate|tauto]]. split.
  - intros H. apply app_eq_nil in H as [-> H]. apply app_eq_nil in H as [-> H]. apply app_eq_nil in H as [-> H]. apply app_eq_nil in H as [-> H]. apply app_eq_nil in H as [-> H]. apply app_eq_nil in H as [-> ->]. auto 10.
  - intros (_ & -> & -> & -> & -> & -> & -> & ->). reflexivity.
Qed.

(** C88, but for tabs (indent_tab_refuted): the size of an indent is the number of bytes after the line end; an item is the first one when only the indent stands before it on its line. *)
Lemma size_plain s : (forall c, contains s c -> c <> tab /\ c <> newline) -> forall z, sizeOf s z = (z + Z.of_nat (String.length s))%Z.
Proof.
  induction s as [|c s IH]; intros N z; [cbn; lia|]. cbn [sizeOf String.length]. destruct (N c) as [N1 N2]; [exists "", s; reflexivity|]. destruct (Ascii.eqb_spec c "010"%char); [contradiction|]. destruct (Ascii.eqb_spec c "009"%char); [contradiction|]. rewrite IH; [lia|]. intros c' (a & b & ->). apply N. exists (String c a), b. reflexivity.
Qed.
Lemma width_plain s : (forall c, contains s c -> c <> tab /\ c <> newline) -> forall w, widthFrom s w = w + String.length s.
Proof.
  induction s as [|c s IH]; intros N w; [cbn; lia|]. cbn [widthFrom String.length]. destruct (N c) as [N1 _]; [exists "", s; reflexivity|]. destruct (Ascii.eqb_spec c tab); [contradiction|]. rewrite IH; [lia|]. intros c' (a & b & ->). apply N. exists (String c a), b. reflexivity.
Qed.
Theorem indent_size_partial before t line s : sType t = "indent" -> sText t = String newline s -> (forall c, contains s c -> c <> tab /\ c <> newline) -> (forall x, In x line -> sType x <> "indent") ->
  blockIndentSize (before ++ t :: line) = (Z.of_nat (width s), match line with [] => true | _ => false end).
Proof.
  intros T X N L. unfold width. rewrite (width_plain s N). cbn [Nat.add]. unfold blockIndentSize. rewrite rev_app_distr. cbn [rev]. rewrite <- app_assoc. cbn [app].
  assert (G : forall l first, (forall x, In x l -> sType x <> "indent") -> indentBack (l ++ t :: rev before) first = (Z.of_nat (String.length s), match l with [] => first | _ => false end)).
  { induction l as [|x l IH]; intros first H; cbn [app indentBack].
    - rewrite T. cbn. rewrite X. cbn [sizeOf]. change (Ascii.eqb newline "010"%char) with true. cbn iota. rewrite (size_plain s N). reflexivity.
    - destruct (String.eqb_spec (sType x) "indent") as [E|_]; [exfalso; exact (H x (or_introl eq_refl) E)|]. rewrite IH by (intros y HY; apply H; right; exact HY). destruct l; reflexivity. }
  rewrite G by (intros x HX; apply L, in_rev, HX). destruct line as [|x line]; [reflexivity|]. destruct (rev (x :: line)) as [|y l] eqn:E; [|reflexivity]. apply (f_equal (@List.length stok)) in E. rewrite rev_length in E. discriminate.
Qed.
(** C87: what is said about operators, and where. *)
Definition placeBefore (prev : option stok) (t : stok) : list place_report :=
  match isSpace prev, String.eqb (sText t) "{" with
  | true, false => match prev with Some s => [at_token s ("excess space before " ++ sText t)%string] | None => [] end
  | false, true => [at_token t "missing space before {"]
  | _, _ => []
  end.
Definition placeAfter (prev : option stok) (t : stok) (next : option stok) : list place_report :=
  match isSpace next, String.eqb (sText t) "," || String.eqb (sText t) "}" with
  | true, false => match next with Some s => [at_token s ("excess space after " ++ sText t)%string] | None => [] end
  | false, true => [at_token (match next with Some x => x | None => match prev with Some s => if isSpace prev then s else t | None => t end end) ("missing space after " ++ sText t)%string]
  | _, _ => []
  end.
Lemma op_places prev t next : opReports prev t next = placeBefore prev t ++ placeAfter prev t next.
Proof.
  unfold opReports, placeBefore, placeAfter, reportToken, at_token.
  destruct prev as [p|], next as [x|]; cbn [isSpace]; try destruct (String.eqb (sType p) "space"); try destruct (String.eqb (sType x) "space").
  all: destruct (String.eqb_spec (sText t) "[") as [->|]; [reflexivity|].
  all: destruct (String.eqb_spec (sText t) "]") as [->|]; [reflexivity|].
  all: destruct (String.eqb_spec (sText t) ";") as [->|]; [reflexivity|].
  all: destruct (String.eqb_spec (sText t) ",") as [->|]; [reflexivity|].
  all: destruct (String.eqb_spec (sText t) "}") as [->|]; [reflexivity|].
  all: destruct (String.eqb_spec (sText t) "{") as [->|]; reflexivity.
Qed.
Lemma ends_space l : endsWithSpace l <-> isSpace (hd_error (rev l)) = true.
Proof.
  rewrite space_dec. pose proof (last_of l) as L. split.
  - intros (l' & x & -> & H). rewrite rev_app_distr. cbn. eauto.
  - intros (x & E & H). destruct (rev l) as [|y r]; [discriminate|]. injection E as ->. destruct L as (l' & ->). exists l', x. auto.
Qed.
Lemma wants_after t : String.eqb (sText t) "," || String.eqb (sText t) "}" = true <-> wantsAfter t.
Proof. rewrite orb_true_iff, !String.eqb_eq. reflexivity. Qed.
Lemma op_complaints before t after r : In r (opReports (hd_error (rev before)) t (hd_error after)) <-> complaint before t after r.
Proof.
  rewrite op_places, in_app_iff. unfold placeBefore, placeAfter. pose proof (ends_space before) as ES. pose proof (wants_after t) as WA. pose proof (last_of before) as L. split.
  - intros [H|H].
    + destruct (isSpace (hd_error (rev before))) eqn:SP; destruct (String.eqb_spec (sText t) "{") as [E|NE]; try destruct H.
      * destruct (rev before) as [|s l]; [destruct H|]. destruct H as [<-|[]]. destruct L as (b & EB). cbn in SP. apply String.eqb_eq in SP. eapply excess_before; eauto.
      * subst r. apply missing_before; [rewrite ES; discriminate|exact E].
      * contradiction.
    + destruct (isSpace (hd_error after)) eqn:SP; destruct (String.eqb (sText t) "," || String.eqb (sText t) "}") eqn:W; try destruct H.
      * destruct after as [|s a]; [destruct H|]. destruct H as [<-|[]]. cbn in SP. apply String.eqb_eq in SP. eapply excess_after; eauto. rewrite <- WA. discriminate.
      * subst r. assert (WT : wantsAfter t) by (apply WA; reflexivity). destruct after as [|x a]; cbn [hd_error].
        -- destruct (rev before) as [|s l]; cbn [hd_error] in *; [apply missing_end; auto; rewrite ES; discriminate|]. destruct (isSpace (Some s)) eqn:S1; [|apply missing_end; auto; rewrite ES; discriminate]. destruct L as (b & EB). eapply missing_end_space; eauto. cbn in S1. apply String.eqb_eq in S1. exact S1.
        -- eapply missing_after; eauto. cbn in SP. apply String.eqb_neq in SP. exact SP.
      * contradiction.
  - intros C. destruct C as [b s E S N|N E|s a E S N|x a E S W|E N W|b s E EB S W].
    + left. rewrite E, rev_app_distr. cbn. rewrite S. apply String.eqb_neq in N. rewrite N. left. reflexivity.
    + left. rewrite E. destruct (isSpace (hd_error (rev before))); [exfalso; apply N, ES; reflexivity|]. left. reflexivity.
    + right. rewrite E. cbn [hd_error isSpace]. rewrite S. cbn. destruct (String.eqb (sText t) "," || String.eqb (sText t) "}"); [exfalso; apply N, WA; reflexivity|]. left. reflexivity.
    + right. rewrite E. cbn [hd_error isSpace]. apply WA in W. rewrite W. apply String.eqb_neq in S. rewrite S. left. reflexivity.
    + right. rewrite E. cbn [hd_error isSpace]. apply WA in W. rewrite W. destruct (rev before) as [|s l]; cbn [hd_error] in *; [left; reflexivity|]. destruct (isSpace (Some s)); [exfalso; apply N, ES; reflexivity|left; reflexivity].
    + right. rewrite E. cbn [hd_error isSpace]. apply WA in W. rewrite W, EB, rev_app_distr. cbn. rewrite S. left. reflexivity.
Qed.
Theorem spaces_reported toks r : In r (incorrectSpaces toks) <-> exists before t after, toks = before ++ t :: after /\ sType t = "op" /\ complaint before t after r.
Proof.
  unfold incorrectSpaces. assert (G : forall toks before, In r (spacesFrom (hd_error (rev before)) toks) <-> exists b t a, toks = b ++ t :: a /\ sType t = "op" /\ complaint (before ++ b) t a r); [|apply (G toks [])].
  clear toks. induction toks as [|t toks IH]; intros before; cbn [spacesFrom].
  - split; [intros []|intros ([|] & ? & ? & E & _); discriminate].
  - pose proof (IH (before ++ [t])) as IH'. rewrite rev_app_distr in IH'. cbn [rev app hd_error] in IH'. rewrite in_app_iff, IH'. split.
    + intros [H|(b & x & a & -> & TX & C)].
      * destruct (String.eqb_spec (sType t) "op") as [TX|]; [|destruct H]. apply op_complaints in H. exists [], t, toks. rewrite app_nil_r. auto.
      * exists (t :: b), x, a. rewrite <- app_assoc in C. auto.
    + intros ([|y b] & x & a & E & TX & C); cbn in E; injection E as <- ->.
      * left. rewrite TX. cbn. apply op_complaints. rewrite app_nil_r in C. exact C.
      * right. exists b, x, a. rewrite <- app_assoc. auto.
Qed.
(** C87: the complaint about the end of the file is at its end; those about tabs are at the tokens that have them. *)
Theorem end_reported l t : noFinalNl (l ++ [t]) = Some (if String.eqb (sType t) "indent" then [] else [(sLine t, sCol t + String.length (sText t), "no newline at file end")]).
Proof. unfold noFinalNl. rewrite rev_app_distr. cbn. destruct (String.eqb (sType t) "indent"); reflexivity. Qed.
Theorem tabs_reported toks r : In r (tabs toks) <-> exists t, In t toks /\ (sType t = "indent" \/ sType t = "space") /\ contains (sText t) tab /\ r = at_token t "no tabs allowed".
Proof.
  unfold tabs. rewrite in_map_iff. split.
  - intros (t & <- & H). rewrite !filter_In, orb_true_iff, !String.eqb_eq, has_tab in H. exists t. tauto.
  - intros (t & I & T & C & ->). exists t. split; [reflexivity|]. rewrite !filter_In, orb_true_iff, !String.eqb_eq, has_tab. tauto.
Qed.
(** C88: on the first line, which has no indent token, the indent is 0. *)
Theorem indent_first_line line : (forall x, In x line -> sType x <> "indent") -> blockIndentSize line = (0%Z, match line with [] => true | _ => false end).
Proof.
  intros L. unfold blockIndentSize. assert (G : forall l first, (forall x, In x l -> sType x <> "indent") -> indentBack l first = (0%Z, match l with [] => first | _ => false end)).
  { induction l as [|x l IH]; intros first H; cbn [indentBack]; [reflexivity|]. destruct (String.eqb_spec (sType x) "indent") as [E|_]; [exfalso; exact (H x (or_introl eq_refl) E)|]. rewrite IH by (intros y HY; apply H; right; exact HY). destruct l; reflexivity. }
  rewrite G by (intros x HX; apply L, in_rev, HX). destruct line as [|x line]; [reflexivity|]. destruct (rev (x :: line)) as [|y l] eqn:E; [|reflexivity]. apply (f_equal (@List.length stok)) in E. rewrite rev_length in E. discriminate.
Qed.
End Reports.

Module Example1.
Definition tk ty tx l c := STok ty tx l c.
(** an insertion sort *)
Fixpoint ins (x : nat) (l : list nat) : list nat := match l with [] => [x] | y :: r => if x <=? y then x :: l else y :: ins x r end.
Definition isort (l : list nat) : list nat := fold_right ins [] l.
Lemma ins_perm x l : Permutation (ins x l) (x :: l).
Proof. induction l as [|y l IH]; cbn; [auto|]. destruct (x <=? y); [auto|]. rewrite IH. apply perm_swap. Qed.
Lemma ins_sorted x l : Sorted le l -> Sorted le (ins x l).
Proof. induction 1 as [|y l S IH H]; cbn; [auto|]. destruct (Nat.leb_spec x y); [repeat constructor; auto|]. constructor; [exact IH|]. destruct l as [|z l]; cbn; [constructor; lia|]. inversion H; subst. destruct (x <=? z); constructor; lia. Qed.
Lemma isort_ok l : Permutation (isort l) l /\ Sorted le (isort l).
Proof. induction l as [|x l [P S]]; cbn; [auto|]. split; [rewrite ins_perm, P; reflexivity|apply ins_sorted, S]. Qed.
Lemma rev_perm (l : list nat) : Permutation (rev l) l.
Proof. symmetry. apply Permutation_rev. Qed.
(** int i, j; and a line end *)
Definition good := [tk "name" "int" 1 1; tk "space" " " 1 4; tk "name" "i" 1 5; tk "op" "," 1 6; tk "space" " " 1 7; tk "name" "j" 1 8; tk "op" ";" 1 9; tk "indent" (String newline "") 1 10].
Example good_passes : option_map (fun c => flatten (@rev nat) isort (collect c)) (inspectCode good [] [] [] [] []) = Some []. Proof. reflexivity. Qed.
(** int i,j ; with a tab *)
Definition bad := [tk "name" "int" 1 1; tk "space" (String tab "") 1 4; tk "name" "i" 1 5; tk "op" "," 1 6; tk "name" "j" 1 7; tk "space" " " 1 8; tk "op" ";" 1 9].
Example bad_reported : option_map (fun c => flatten (@rev nat) isort (collect c)) (inspectCode bad [] [] [] [] []) = Some [(1, 4, "no tabs allowed"); (1, 7, "missing space after ,"); (1, 8, "excess space before ;"); (1, 10, "no newline at file end")].
Proof. reflexivity. Qed.
(** int i[1] [2]; and a line end *)
Definition lost := [tk "name" "int" 1 1; tk "space" " " 1 4; tk "name" "i" 1 5; tk "op" "[" 1 6; tk "number" "1" 1 7; tk "op" "]" 1 8; tk "space" " " 1 9; tk "op" "[" 1 10; tk "number" "2" 1 11; tk "op" "]" 1 12; tk "op" ";" 1 13; tk "indent" (String newline "") 1 14].
Example indented : blockIndentSize (good ++ [tk "indent" (String newline "    ") 2 1; tk "name" "int" 2 5]) = (4%Z, false). Proof. reflexivity. Qed.
Example first_line : blockIndentSize [tk "name" "int" 1 1] = (0%Z, false). Proof. reflexivity. Qed.
Example complained : In (1, 8, "excess space before ;") (incorrectSpaces bad).
Proof. apply spaces_reported. exists [tk "name" "int" 1 1; tk "space" (String tab "") 1 4; tk "name" "i" 1 5; tk "op" "," 1 6; tk "name" "j" 1 7; tk "space" " " 1 8], (tk "op" ";" 1 9), []. split; [reflexivity|]. split; [reflexivity|]. change (1, 8, "excess space before ;") with (at_token (tk "space" " " 1 8) ("excess space before " ++ sText (tk "op" ";" 1 9))%string). apply (excess_before _ _ _ [tk "name" "int" 1 1; tk "space" (String tab "") 1 4; tk "name" "i" 1 5; tk "op" "," 1 6; tk "name" "j" 1 7] (tk "space" " " 1 8)); [reflexivity|reflexivity|discriminate]. Qed.
End Example1.

(** C86, refuted in full: a message is lost when another one is for the same place. *)
Theorem reports_lost_refuted : exists shuffle sortInts, (forall l, Permutation (shuffle l) l) /\ (forall l, Permutation (sortInts l) l /\ Sorted le (sortInts l)) /\
  exists toks calls r, inspectCode toks [] [] [] [] [] = Some calls /\ In r calls /\ ~ In r (flatten shuffle sortInts (collect calls)).
Proof.
  exists (@rev nat), Example1.isort. split; [exact Example1.rev_perm|]. split; [exact Example1.isort_ok|]. exists Example1.lost. eexists. exists (1, 9, "excess space after ]"). split; [reflexivity|]. split; [left; reflexivity|]. cbn. intros [H|[]]. discriminate.
Qed.
(** C88, refuted in full: a tab at the start of a line is taken for one column, as a single space is. *)
Theorem indent_tab_refuted : exists s, blockIndentSize [STok "indent" (String newline s) 1 1] <> (Z.of_nat (width s), true) /\
  blockIndentSize [STok "indent" (String newline s) 1 1] = blockIndentSize [STok "indent" (String newline " ") 1 1] /\ width s <> width " ".
Proof. exists (String tab ""). split; [discriminate|]. split; [reflexivity|discriminate]. Qed.

Print Assumptions reports_listed_partial.
Print Assumptions nothing_listed.
Print Assumptions spaces_checked.
Print Assumptions style_passes_partial.
Print Assumptions indent_size_partial.
Print Assumptions reports_lost_refuted.
Print Assumptions indent_tab_refuted.
Print Assumptions spaces_reported.
Print Assumptions end_reported.
Print Assumptions tabs_reported.
Print Assumptions indent_first_line.
