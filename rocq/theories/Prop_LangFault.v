(** C70: the error of a description that is written right is its first fault. *)
From Coq Require Import ZArith List Bool Lia String.
From Verif Require Import Base BaseProofs Grammar LangBuild LangTypes LangString LangStringSpec LangText LangTextSpec LangTextFuel LangTextTotal LangDescSpec LangDescParse LangDescFacts LangDescHead LangDescNodes LangDescAll LangErrorSpec LangErrorLocal LangErrorSteps LangErrorViable LangErrorForward LangFaultSpec LangFaultRead LangFaultRun LangFaultFirst Prop_LangText Prop_LangDesc Prop_LangError.
From Verif Require DescLexer DescLexerSpec DescLexerProofs Prop_DescLexer.
Import ListNotations.
Open Scope Z_scope.

Section Text.
Variable compiles : name -> bool.
Variable fullMatch : name -> name -> bool.
Variable toUpper : name -> name.
Variable orders : nat -> list Z * list Z * list Z.
Notation parse fuel input := (parseText compiles fullMatch toUpper fuel orders input TEnd).

Lemma read_error fuel input e : parse fuel input = AReadError e <-> exists c, readDescription compiles fuel (newContext input TEnd) = RFail e c.
Proof.
  unfold parseText. destruct (readDescription compiles fuel (newContext input TEnd)) as [u c|e' c| |]; split; try (intros (c' & X); discriminate); try discriminate.
  - destruct (orders (List.length (cDefs c))) as ((o1 & o2) & o3). match goal with |- match ?x with _ => _ end = _ -> _ => destruct x end; discriminate.
  - intros X. injection X as ->. eauto.
  - intros (c' & X). injection X as -> _. reflexivity.
Qed.
(** Whatever is reported is the first fault. *)
Lemma read_reports fuel input rs e : Forall lexed input -> spells input rs -> parse fuel input = AReadError e -> reported compiles rs e.
Proof.
  intros L SP H. pose proof (proj1 SP) as SR. assert (RD : readable input) by (split; [exact L|]; apply (records_strings _ string_kind _ _ SR)). pose proof (readable_decodes _ RD) as D.
  apply read_error in H. destruct H as (c & H). pose proof (no_error compiles fuel input e c (conj RD (ex_intro _ rs SP)) H) as NE.
  destruct (proj2 SP) as (hd & root & rest & -> & NH & NR & LR).
  assert (AT : here (map dec input) (newContext input TEnd)) by (apply (at_start _ TEnd D); discriminate).
  pose proof (w_description compiles _ _ _ _ _ _ _ _ (proj1 (records_dec _ _ D) SR) NH NR LR AT H) as F.
  assert (LL : Forall laterRecord (root :: rest)) by (constructor; [left; exact NR|exact LR]).
  apply description_fails; try assumption.
  - exact (fits_app _ _ (records_fit _ _ _ L SR)).
  - intros ->. apply NE. left. reflexivity.
Qed.

(** *** C70 *)
(** An error of a description written by the rules is its first fault, and descriptions with no faults have no errors of reading. *)
Theorem faults_reported input rs : Forall lexed input -> spells input rs ->
  exists n, forall fuel, (n <= fuel)%nat -> forall e, parse fuel input = AReadError e <-> reported compiles rs e.
Proof.
  intros L SP. destruct (correct_any_order compiles fullMatch toUpper orders input rs L SP) as (V & NV).
  pose proof (t_description compiles (4 * List.length input + 5) (List.length input) (Nat.le_refl _) _ (HD_new _ _ L (spelled_ends _ _ SP))) as X.
  destruct (readDescription compiles (4 * List.length input + 5) (newContext input TEnd)) as [[] c|e0 c| |] eqn:R; try contradiction.
  - destruct (says_read compiles input TEnd rs L ltac:(discriminate) SP) as (_ & B). destruct B as (KP & res & VR); [eauto|].
    exists 0%nat. intros fuel _ e. split; [apply read_reports; assumption|]. intros RP. destruct (valid_clean _ _ _ _ VR KP RP).
  - exists (4 * List.length input + 5)%nat. intros fuel F e. assert (E : readDescription compiles fuel (newContext input TEnd) = RFail e0 c).
    { destruct (lem_description compiles _ fuel F (newContext input TEnd)) as [H|H]; rewrite R in H; [discriminate|exact H]. }
    assert (E' : parse fuel input = AReadError e0) by (apply read_error; eauto). split; [apply read_reports; assumption|].
    intros RP. rewrite E'. f_equal. apply (reported_det compiles rs); [|exact RP]. eapply read_reports; eassumption.
Qed.
(** The same for texts. *)
Theorem text_faults_reported text input rs : DescLexerSpec.splits DescLexerProofs.taken text input [] -> spells input rs ->
  exists n, forall fuel, (n <= fuel)%nat -> forall e, DescLexer.parseBytes compiles fullMatch toUpper fuel orders text = AReadError e <-> reported compiles rs e.
Proof.
  intros SPL SP. destruct (faults_reported input rs (Prop_DescLexer.split_lexed _ _ _ SPL) SP) as (n & H). exists n. intros fuel F e.
  rewrite (Prop_DescLexer.text_read _ _ _ _ _ _ _ _ SPL). apply H, F.
Qed.
End Text.
(** A description has a fault to report if and only if it is not correct, and one fault only. *)
Theorem one_fault compiles rs e e' : reported compiles rs e -> reported compiles rs e' -> e = e'.
Proof. apply reported_det. Qed.
Theorem correct_no_fault compiles rs res e : valid compiles rs res -> groupsKept rs -> ~ reported compiles rs e.
Proof. apply valid_clean. Qed.
Theorem incorrect_has_fault compiles input rs : Forall lexed input -> spells input rs -> ~ (groupsKept rs /\ exists res, valid compiles rs res) -> exists e, reported compiles rs e.
Proof.
  intros L SP NV. destruct (correct_any_order compiles (fun _ _ => true) (fun t => t) (fun _ => ([], [], [])) input rs L SP) as (_ & N). destruct (N NV) as (n & H). destruct (H n (Nat.le_refl _)) as (e & E).
  exists e. eapply read_reports; eassumption.
Qed.

(** Descriptions with faults: all the conditions hold, and the fault is what the specification says it is. *)
Module Example70.
  Definition b := bytes.
  Definition compiles (re : name) : bool := negb (nameEqb re (b "(")).
  Notation parse rs := (parseText compiles (fun _ _ => true) (fun t => t) 400 Prop_LangText.Example1.orders (wAll rs) TEnd).
  Definition meets (rs : list record) : bool := forallb recordOk rs && orderedB rs && forallb lexed1 (wAll rs).
  Lemma conditions rs : meets rs = true -> spells (wAll rs) rs /\ Forall lexed (wAll rs).
  Proof.
    intros H. unfold meets in H. rewrite !andb_true_iff in H. destruct H as ((A & B) & C). split; [apply written_description; assumption|apply lexedb_ok, C].
  Qed.
  Lemma fault rs e : meets rs = true -> parse rs = AReadError e -> reported compiles rs e.
  Proof. intros M E. destruct (conditions rs M) as (A & B). eapply read_reports; [exact B|exact A|exact E]. Qed.
  (** !side $s; !extern $e; !literal 'x'; $$d = /[0-9]/; $s = / /; $n = d /+/; *)
  Definition head : list record := [RDirective DSide [AType (b "s")]; RDirective DExtern [AType (b "e")]; RDirective DLiteral [AString (b "x")]; RTemplate (b "d") [PRegexp (b "[0-9]")]; RType (b "s") [PRegexp (b " ")]; RType (b "n") [PTemplate (b "d"); PRegexp (b "+")]].
  (** r = $n, {$e | (x, 'x')}; x = 'x'; *)
  Definition nodes : list record := [RNode (b "r") [[VType (b "n")]; [VList Curly [[VType (b "e"); VList Round [[VNode (b "x")]; [VLiteral (b "x")]]]]]]; RNode (b "x") [[VLiteral (b "x")]]].
  Example right : meets (head ++ nodes) = true /\ exists g, parse (head ++ nodes) = AGrammar g. Proof. split; [vm_compute; reflexivity|]. eexists. vm_compute. reflexivity. Qed.
  Ltac shows := apply fault; vm_compute; reflexivity.
  (** $$d = /a/; and $s = /(/; with the later faults of nodes not reported *)
  Definition wrongNode : list record := [RNode (b "x") [[VType (b "q")]]].
  Example template_twice : reported compiles (head ++ [RTemplate (b "d") [PRegexp (b "a")]; RType (b "s") [PRegexp (b "(")]] ++ nodes ++ wrongNode) (RE_templateDefined (b "d")). Proof. shows. Qed.
  Example type_twice : reported compiles (head ++ [RType (b "s") [PRegexp (b "(")]; RTemplate (b "d") [PRegexp (b "a")]] ++ nodes ++ wrongNode) (RE_tokenDefined (mkT KToken (b "$s"))). Proof. shows. Qed.
  Example unknown_template : reported compiles (head ++ [RType (b "m") [PTemplate (b "d"); PTemplate (b "f"); PTemplate (b "g")]] ++ nodes) (RE_unknownTemplate (b "f")). Proof. shows. Qed.
  Example bad_regexp : reported compiles (head ++ [RType (b "m") [PRegexp (b "(")]] ++ nodes) (RE_regexp (mkT KRegexp (b "/(/"))). Proof. shows. Qed.
  Example too_many : reported compiles Prop_LangDesc.Refuted.before RE_tokenNumber. Proof. shows. Qed.
  Example undefined_type : reported compiles (head ++ [RDirective DCaseless [AType (b "m"); AType (b "k")]] ++ nodes ++ wrongNode) (RE_undefinedToken (b "m")). Proof. shows. Qed.
  Example node_twice : reported compiles (head ++ nodes ++ wrongNode) (RE_nodeDefined (mkT KName (b "x"))). Proof. shows. Qed.
  Example unknown_type : reported compiles (head ++ nodes ++ [RNode (b "y") [[VType (b "q"); VType (b "s")]]] ++ wrongNode) (RE_token (mkT KToken (b "$q"))). Proof. shows. Qed.
  Example side_type : reported compiles (head ++ nodes ++ [RNode (b "y") [[VList Square [[VType (b "n"); VType (b "s")]]]; [VLiteral (b "z")]]]) (RE_wrongToken (mkT KToken (b "$s"))). Proof. shows. Qed.
  Example unknown_literal : reported compiles (head ++ nodes ++ [RNode (b "y") [[VList Square [[VType (b "n")]; [VLiteral (b "z")]; [VType (b "q")]]]]]) (RE_unknownLiteral (b "z")). Proof. shows. Qed.
  (** !group $n; !group $s $e $n; -- $n has a group; before it is defined its groups may change; and !reserved 'x'; is late *)
  Definition group (l : list string) : record := RDirective DGroup (map (fun n => AType (b n)) l).
  Example late_groups : reported compiles (head ++ [group ["n"]%string; group ["s"; "e"; "n"; "s"]%string; RDirective DReserved [AString (b "x")]] ++ nodes ++ wrongNode) (RE_reassignedGroup (b "n")). Proof. shows. Qed.
  Example same_group : reported compiles (head ++ [group ["e"; "s"; "e"; "s"]%string] ++ nodes ++ wrongNode) (RE_reassignedGroup (b "s")). Proof. shows. Qed.
  Example early_groups : meets (group ["n"; "n"]%string :: group ["n"; "s"]%string :: head ++ [RDirective DReserved [AString (b "x")]] ++ nodes) = true /\ exists g, parse (group ["n"; "n"]%string :: group ["n"; "s"]%string :: head ++ [RDirective DReserved [AString (b "x")]] ++ nodes) = AGrammar g. Proof. split; [vm_compute; reflexivity|]. eexists. vm_compute. reflexivity. Qed.
End Example70.

Print Assumptions faults_reported.
Print Assumptions text_faults_reported.
Print Assumptions one_fault.
Print Assumptions correct_no_fault.
Print Assumptions incorrect_has_fault.
