(** C89: indents and alignment in the style checker. *)
From Coq Require Import List Bool String Ascii Arith ZArith Lia.
From Verif Require Import Style StyleSpec Prop_Style StyleNodes StyleNodesSpec.
Import ListNotations.
Open Scope string_scope.
Open Scope list_scope.

(** an item starts its line with the indent [n] *)
Definition indented (n : Z) (i : item) : Prop := blockIndentSize (iBefore i) = (n, true).
Definition firstOnLine (i : item) : Prop := snd (blockIndentSize (iBefore i)) = true.
(** the indent wanted in a container: none in the file, 4 more than the line of the struct in a struct *)
Definition wanted (container : option (list stok)) (n : Z) : Prop :=
  match container with None => n = 0%Z | Some before => exists k first, blockIndentSize before = (k, first) /\ n = (k + 4)%Z end.
Lemma wanted_is c : wanted c (expectedIndent c).
Proof. destruct c as [b|]; [|reflexivity]. cbn. destruct (blockIndentSize b) as [k f]. exists k, f. auto. Qed.
Lemma wanted_one c n : wanted c n -> n = expectedIndent c.
Proof. destruct c as [b|]; cbn; [|auto]. intros (k & f & E & ->). rewrite E. reflexivity. Qed.
Lemma items_empty e items : itemReports e items = [] <-> Forall (indented e) items.
Proof.
  induction items as [|i items IH]; cbn; [split; constructor|]. rewrite Forall_cons_iff. unfold indented at 1. destruct (blockIndentSize (iBefore i)) as [n [|]]; cbn.
  - destruct (Z.eqb_spec n e) as [->|NE]; cbn; [rewrite IH; tauto|]. split; [discriminate|intros [[= E] _]; contradiction].
  - split; [discriminate|intros [[=] _]].
Qed.
Lemma indents_empty containers : indentReports containers = [] <->
  forall c items i n, In (c, items) containers -> In i items -> wanted c n -> indented n i.
Proof.
  unfold indentReports. split.
  - intros H c items i n HC HI W. apply wanted_one in W as ->. assert (E : itemReports (expectedIndent c) items = []).
    { destruct (itemReports (expectedIndent c) items) as [|r l] eqn:E; [reflexivity|]. exfalso. assert (X : In r []); [|destruct X]. rewrite <- H. apply in_flat_map. exists (c, items). split; [exact HC|]. cbn. rewrite E. left. reflexivity. }
    apply items_empty in E. rewrite Forall_forall in E. auto.
  - intros H. induction containers as [|[c items] cs IH]; [reflexivity|]. cbn [flat_map fst snd]. rewrite IH by (intros; eapply H; [right|..]; eauto). rewrite app_nil_r. apply items_empty, Forall_forall. intros i HI. eapply H; [left; reflexivity|exact HI|apply wanted_is].
Qed.
Lemma line_split l : noIndent l \/ exists a t line, l = a ++ t :: line /\ sType t = "indent" /\ noIndent line.
Proof.
  induction l as [|x l IH]; [left; intros ? []|]. destruct IH as [N|(a & t & line & -> & T & N)]; [|right; exists (x :: a), t, line; auto].
  destruct (String.eqb_spec (sType x) "indent") as [E|NE]; [right; exists [], x, l; auto|left]. intros y [<-|HY]; auto.
Qed.
Lemma line_indent_size before n : lineIndent before n -> fst (blockIndentSize before) = n.
Proof.
  intros [[N ->]|(a & t & line & s & -> & (T & X & C) & N & ->)]; [rewrite indent_first_line by exact N; reflexivity|]. rewrite (indent_size_partial a t line s T X C N). reflexivity.
Qed.
Lemma plain_line before : plain before -> exists n, lineIndent before n.
Proof.
  intros P. destruct (line_split before) as [N|(a & t & line & -> & T & N)]; [exists 0%Z; left; auto|]. destruct (P t) as (s & S); [apply in_or_app; right; left; reflexivity|exact T|]. exists (Z.of_nat (width s)). right. exists a, t, line, s. auto.
Qed.
Lemma stands_at before n : plain before -> (blockIndentSize before = (n, true) <-> standsAt before n).
Proof.
  intros P. split.
  - intros B. destruct (line_split before) as [N|(a & t & line & -> & T & N)].
    + rewrite indent_first_line in B by exact N. destruct before; [|discriminate]. injection B as <-. left. auto.
    + destruct (P t) as (s & _ & X & C); [apply in_or_app; right; left; reflexivity|exact T|]. rewrite (indent_size_partial a t line s T X C N) in B. destruct line; [|discriminate]. injection B as <-. right. exists a, t, s. split; [reflexivity|]. split; [split; auto|reflexivity].
  - intros [[-> ->]|(a & t & s & -> & (T & X & C) & ->)]; [reflexivity|]. apply (indent_size_partial a t [] s T X C). intros ? [].
Qed.
Lemma wanted_at c n : (forall b, c = Some b -> plain b) -> (wanted c n <-> wantedAt c n).
Proof.
  intros P. destruct c as [b|]; cbn; [|reflexivity]. split.
  - intros (k & f & B & ->). destruct (plain_line b (P b eq_refl)) as (k' & L). pose proof (line_indent_size _ _ L) as E. rewrite B in E. cbn in E. subst k'. exists k. auto.
  - intros (k & L & ->). pose proof (line_indent_size _ _ L) as E. destruct (blockIndentSize b) as [k' f]. cbn in E. subst k'. exists k, f. auto.
Qed.
(** C89: no complaint about indents is made exactly when every item starts its line at the indent wanted.
    Missing for the full property: indents with tabs (refuted in C88), and that the containers and items are those of the tree. *)
Theorem indents_checked_partial containers :
  (forall c items, In (c, items) containers -> (forall b, c = Some b -> plain b) /\ forall i, In i items -> plain (iBefore i)) ->
  (indentReports containers = [] <-> forall c items i n, In (c, items) containers -> In i items -> wantedAt c n -> standsAt (iBefore i) n).
Proof.
  intros P. rewrite indents_empty. split; intros H c items i n HC HI W; destruct (P c items HC) as [PC PI].
  - apply stands_at; [auto|]. apply (H c items i n HC HI). apply wanted_at; assumption.
  - apply stands_at; [auto|]. apply (H c items i n HC HI). apply wanted_at; assumption.
Qed.
(** An indent is wanted in every container: the theorem above never holds for want of [wantedAt]. *)
Theorem some_indent_wanted c : (forall b, c = Some b -> plain b) -> exists n, wantedAt c n.
Proof. intros P. exists (expectedIndent c). apply wanted_at; [exact P|apply wanted_is]. Qed.
(** In a container, an item is complained about exactly when all items before it that start their lines have the indent wanted, and it does not start its line or has another indent. *)
Theorem indents_reported c items n r : wanted c n -> (In r (itemReports (expectedIndent c) items) <->
  exists before i after, items = before ++ i :: after /\ (forall x, In x before -> firstOnLine x -> indented n x) /\
    (~ firstOnLine i /\ r = at_token (iFirst i) "must be on a separate line" \/ firstOnLine i /\ ~ indented n i /\ r = at_token (iFirst i) "incorrect indent")).
Proof.
  intros W. apply wanted_one in W as <-. induction items as [|i items IH]; cbn [itemReports].
  - split; [intros []|intros ([|] & ? & ? & E & _); discriminate].
  - assert (SK : (firstOnLine i -> indented n i) -> (In r (itemReports n items) <-> exists before j after, i :: items = (i :: before) ++ j :: after /\ (forall x, In x (i :: before) -> firstOnLine x -> indented n x) /\ (~ firstOnLine j /\ r = at_token (iFirst j) "must be on a separate line" \/ firstOnLine j /\ ~ indented n j /\ r = at_token (iFirst j) "incorrect indent"))).
    { intros OK. rewrite IH. split.
      - intros (b & j & a & -> & HB & HJ). exists b, j, a. split; [reflexivity|]. split; [|exact HJ]. intros x [<-|HX]; auto.
      - intros (b & j & a & E & HB & HJ). injection E as ->. exists b, j, a. split; [reflexivity|]. split; [|exact HJ]. intros x HX. apply HB. right. exact HX. }
    destruct (blockIndentSize (iBefore i)) as [k f] eqn:B. destruct f; cbn [negb].
    + assert (FI : firstOnLine i) by (unfold firstOnLine; rewrite B; reflexivity). destruct (Z.eqb_spec k n) as [->|NE]; cbn [negb].
      * rewrite SK by (intros _; exact B). split; [intros (b & j & a & X); exists (i :: b), j, a; exact X|]. intros ([|y b] & j & a & E & HB & HJ).
        -- injection E as <- <-. exfalso. destruct HJ as [[NF _]|(_ & NI & _)]; [contradiction|]. apply NI. exact B.
        -- injection E as <- E. exists b, j, a. cbn. rewrite E. auto.
      * assert (NI : ~ indented n i) by (unfold indented; rewrite B; intros [= E]; contradiction). split.
        -- intros [<-|[]]. exists [], i, items. split; [reflexivity|]. split; [intros x []|]. right. auto.
        -- intros ([|y b] & j & a & E & HB & HJ); injection E as <- E.
           ++ destruct HJ as [[NF _]|(_ & _ & ->)]; [contradiction|left; reflexivity].
           ++ exfalso. apply NI, HB; [left; reflexivity|exact FI].
    + assert (NF : ~ firstOnLine i) by (unfold firstOnLine; rewrite B; discriminate). cbn [In]. rewrite SK by (intros F; contradiction). split.
      * intros [<-|(b & j & a & X)]; [|exists (i :: b), j, a; exact X]. exists [], i, items. split; [reflexivity|]. split; [intros x []|]. left. auto.
      * intros ([|y b] & j & a & E & HB & HJ).
        -- injection E as <- <-. left. destruct HJ as [[_ ->]|[F _]]; [reflexivity|contradiction].
        -- right. injection E as <- E. exists b, j, a. cbn. rewrite E. auto.
Qed.

(** A struct is complained about at its first name that is not in the column of the very first one. *)
Theorem align_reported structs r : In r (alignReports structs) <->
  exists first before n after, In (first :: before ++ n :: after) structs /\ (forall x, In x before -> sCol x = sCol first) /\ sCol n <> sCol first /\ r = at_token n "inconsistent struct field align".
Proof.
  assert (G : forall col names, In r (alignFrom col names) <-> exists before n after, names = before ++ n :: after /\ (forall x, In x before -> sCol x = col) /\ sCol n <> col /\ r = at_token n "inconsistent struct field align").
  { intros col. induction names as [|m names IH]; cbn [alignFrom]; [split; [intros []|intros ([|] & ? & ? & E & _); discriminate]|]. destruct (Nat.eqb_spec (sCol m) col) as [E|NE]; cbn [negb].
    - rewrite IH. split.
      + intros (b & n & a & -> & HB & X). exists (m :: b), n, a. split; [reflexivity|]. split; [intros x [<-|HX]; auto|exact X].
      + intros ([|y b] & n & a & EQ & HB & NE & X); injection EQ as <- ->; [contradiction|]. exists b, n, a. split; [reflexivity|]. split; [intros x HX; apply HB; right; exact HX|auto].
    - split.
      + intros [<-|[]]. exists [], m, names. split; [reflexivity|]. split; [intros x []|auto].
      + intros ([|y b] & n & a & EQ & HB & NN & X); injection EQ as <- ->; [left; symmetry; exact X|]. exfalso. apply NE, HB. left. reflexivity. }
  unfold alignReports. rewrite in_flat_map. split.
  - intros ([|f names] & HS & H); [destruct H|]. apply G in H as (b & n & a & -> & X). exists f, b, n, a. auto.
  - intros (f & b & n & a & HS & X). exists (f :: b ++ n :: a). split; [exact HS|]. apply G. exists b, n, a. auto.
Qed.

Module Example1.
Definition nl n := STok "indent" (String newline n) 1 1.
Definition w l c := STok "name" "int" l c.
(** two fields in a struct at the start of its line: the second on the line of the first, the third with a wrong indent, the fourth is not looked at *)
Definition items := [Item [w 1 1; nl "    "] (w 2 5); Item [w 1 1; nl "    "; w 2 5] (w 2 12); Item [w 1 1; nl "  "] (w 3 3); Item [w 1 1; nl "   "] (w 4 4)].
Example reported : indentReports [(Some [w 1 1], items)] = [(2, 12, "must be on a separate line"); (3, 3, "incorrect indent")]. Proof. reflexivity. Qed.
Example fine : indentReports [(None, [Item [] (w 1 1); Item [w 1 1; nl ""] (w 2 1)])] = []. Proof. reflexivity. Qed.
Example plain_items : forall i, In i items -> plain (iBefore i).
Proof.
  assert (CN : forall c, ~ contains "" c) by (intros c ([|] & b & E); discriminate).
  assert (CC : forall x s c, contains (String x s) c -> c = x \/ contains s c).
  { intros x s c ([|y a] & b & E); cbn in E; injection E as E1 E2; [left; auto|right; exists a, b; exact E2]. }
  assert (G : forall n t, (n = "    " \/ n = "  " \/ n = "   ") -> t = nl n -> exists s, plainIndent t s).
  { intros n t H ->. exists n. split; [reflexivity|]. split; [reflexivity|]. intros c HC. assert (c = " "%char); [|subst; split; discriminate].
    destruct H as [H|[H|H]]; rewrite H in HC; repeat (apply CC in HC; destruct HC as [HC|HC]; [exact HC|]); destruct (CN c HC). }
  intros i HI t HT T. cbn in HI. destruct HI as [E|[E|[E|[E|[]]]]]; subst i; cbn in HT.
  - destruct HT as [E|[E|[]]]; [subst t; discriminate T|]. apply (G "    "); [auto|symmetry; exact E].
  - destruct HT as [E|[E|[E|[]]]]; [subst t; discriminate T| |subst t; discriminate T]. apply (G "    "); [auto|symmetry; exact E].
  - destruct HT as [E|[E|[]]]; [subst t; discriminate T|]. apply (G "  "); [auto|symmetry; exact E].
  - destruct HT as [E|[E|[]]]; [subst t; discriminate T|]. apply (G "   "); [auto|symmetry; exact E].
Qed.
Example wanted4 : wanted (Some [w 1 1]) 4%Z. Proof. exists 0%Z, false. auto. Qed.
Example aligned : alignReports [[w 1 5; w 2 5; w 3 6; w 4 7]; [w 5 1; w 6 1]; []] = [(3, 6, "inconsistent struct field align")]. Proof. reflexivity. Qed.
End Example1.

Print Assumptions indents_checked_partial.
Print Assumptions some_indent_wanted.
Print Assumptions indents_reported.
Print Assumptions align_reported.
