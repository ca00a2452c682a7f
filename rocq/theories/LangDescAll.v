(** All of a description: what is read is what its records say (LangDescSpec.v). *)
From Coq Require Import ZArith List Bool Lia.
From Verif Require Import Base BaseProofs Grammar LangBuild LangTypes LangString LangStringSpec LangText LangTextSpec LangTextTotal LangTextFuel LangDescSpec LangDescParse LangDescFacts LangDescHead LangDescNodes.
Import ListNotations.
Open Scope Z_scope.

Section R.
Variable compiles : name -> bool.
(** ** Records of nodes and layers say nothing of types *)
Section Later.
Variables (hd nodes : list record).
Hypothesis L : Forall laterRecord nodes.
Lemma later_step (P : list record -> Prop) : P hd -> (forall rs r, laterRecord r -> P rs -> P (rs ++ [r])) -> P (hd ++ nodes).
Proof.
  intros H S. revert L. induction nodes as [|r l IH] using rev_ind; intros F; [rewrite app_nil_r; exact H|]. apply Forall_app in F. destruct F as (F1 & F2). inversion F2; subst. rewrite app_assoc. apply S; auto.
Qed.
Lemma later_quiet r : laterRecord r -> isDirective r = false.
Proof. intros [X|X]; destruct r; try destruct X; reflexivity. Qed.
Lemma lt_types P : typesIn P (hd ++ nodes) = typesIn P hd.
Proof. apply (later_step (fun rs => typesIn P rs = typesIn P hd)); [reflexivity|]. intros rs r Q E. rewrite q_types by (apply later_quiet, Q). exact E. Qed.
Lemma lt_strings P : stringsIn P (hd ++ nodes) = stringsIn P hd.
Proof. apply (later_step (fun rs => stringsIn P rs = stringsIn P hd)); [reflexivity|]. intros rs r Q E. rewrite q_strings by (apply later_quiet, Q). exact E. Qed.
Lemma lt_groupNow n : groupNow n (hd ++ nodes) = groupNow n hd.
Proof. apply (later_step (fun rs => groupNow n rs = groupNow n hd)); [reflexivity|]. intros rs r Q E. rewrite q_groupNow by (apply later_quiet, Q). exact E. Qed.
Lemma lt_reserved s : reservedNow s (hd ++ nodes) = reservedNow s hd.
Proof. apply (later_step (fun rs => reservedNow s rs = reservedNow s hd)); [reflexivity|]. intros rs r Q E. rewrite q_reserved by (apply later_quiet, Q). exact E. Qed.
Lemma lt_kept : groupsKept (hd ++ nodes) <-> groupsKept hd.
Proof. split; [apply kept_prefix|]. intros K. apply (later_step groupsKept); [exact K|]. intros rs r Q. apply q_kept, later_quiet, Q. Qed.
Lemma lt_early : early [] (hd ++ nodes) = early [] hd.
Proof. apply (later_step (fun rs => early [] rs = early [] hd)); [reflexivity|]. intros rs r Q E. rewrite q_early by (apply later_quiet, Q). exact E. Qed.
Lemma lt_defined : defined (hd ++ nodes) = defined hd.
Proof. apply (later_step (fun rs => defined rs = defined hd)); [reflexivity|]. intros rs r Q E. rewrite defined_app, E. destruct Q as [X|X]; destruct r; try destruct X; apply app_nil_r. Qed.
Lemma lt_regs : option_map snd (regs compiles [] (hd ++ nodes)) = option_map snd (regs compiles [] hd).
Proof.
  apply (later_step (fun rs => option_map snd (regs compiles [] rs) = option_map snd (regs compiles [] hd))); [reflexivity|]. intros rs r Q E. rewrite <- E, regs_snoc. destruct (regs compiles [] rs) as [(a, b)|]; cbn [obind]; [|reflexivity]. destruct Q as [X|X]; destruct r; try destruct X; cbn; rewrite app_nil_r; reflexivity.
Qed.
Lemma lt_listed d n : listed d n (hd ++ nodes) = listed d n hd.
Proof. unfold listed. rewrite lt_types. reflexivity. Qed.
Lemma lt_flags n : flagsOf n (hd ++ nodes) = flagsOf n hd.
Proof. unfold flagsOf. rewrite !lt_listed, lt_types. reflexivity. Qed.
Lemma lt_undefined : undefined (hd ++ nodes) = undefined hd.
Proof. unfold undefined. rewrite lt_defined, lt_types. reflexivity. Qed.
Lemma lt_typeNames : typeNames (hd ++ nodes) = typeNames hd.
Proof. unfold typeNames. rewrite lt_defined, lt_undefined. reflexivity. Qed.
Lemma lt_typeToken d : typeTokenNow (hd ++ nodes) d = typeTokenNow hd d.
Proof. unfold typeTokenNow. rewrite lt_groupNow, lt_flags. reflexivity. Qed.
Lemma lt_literalToken s : literalTokenNow (hd ++ nodes) s = literalTokenNow hd s.
Proof. unfold literalTokenNow. rewrite lt_reserved. reflexivity. Qed.
End Later.
Lemma head_nodes (f : record -> list name) hd nodes : Forall (fun r => ~ isNode r) hd -> (forall r, ~ isNode r -> f r = []) -> flat f (hd ++ nodes) = flat f nodes.
Proof. intros N F. induction N as [|r hd NR _ IH]; [reflexivity|]. cbn [app]. rewrite flat_cons, F by exact NR. exact IH. Qed.
Lemma hd_used hd nodes : Forall (fun r => ~ isNode r) hd -> usedLiterals (hd ++ nodes) = usedLiterals nodes.
Proof. intros N. apply head_nodes; [exact N|]. intros r H. destruct r; try reflexivity. destruct (H I). Qed.
Lemma hd_defined hd nodes : Forall (fun r => ~ isNode r) hd -> nodesDefined (hd ++ nodes) = nodesDefined nodes.
Proof. intros N. apply head_nodes; [exact N|]. intros r H. destruct r; try reflexivity. destruct (H I). Qed.
Lemma hd_names hd nodes : Forall (fun r => ~ isNode r) hd -> nodeNames (hd ++ nodes) = firsts (mentioned nodes).
Proof. intros N. unfold nodeNames, mentioned. f_equal. apply head_nodes; [exact N|]. intros r H. destruct r; try reflexivity. destruct (H I). Qed.
Lemma hd_find hd nodes x : Forall (fun r => ~ isNode r) hd -> find (defines x) (hd ++ nodes) = find (defines x) nodes.
Proof. intros N. induction N as [|r hd NR _ IH]; [reflexivity|]. cbn [app find]. destruct r; cbn [defines]; try exact IH. destruct (NR I). Qed.
Lemma chunk_W rs : forall v, chunkOf rs v = chunkW rs (nodeNames rs) (literals rs) v.
Proof.
  apply variant_nested; intros; cbn [chunkOf chunkW]; auto. f_equal. apply map_ext_in. intros i I0. rewrite Forall_forall in H. specialize (H i I0). f_equal. apply map_ext_in. intros v Iv. rewrite Forall_forall in H. apply H, Iv.
Qed.
Lemma chunkW_types rs rs' a b : typeNames rs = typeNames rs' -> forall v, chunkW rs a b v = chunkW rs' a b v.
Proof.
  intros E. apply variant_nested; intros; cbn [chunkW]; rewrite ?E; auto. f_equal. apply map_ext_in. intros i I0. rewrite Forall_forall in H. specialize (H i I0). f_equal. apply map_ext_in. intros v Iv. rewrite Forall_forall in H. apply H, Iv.
Qed.
Lemma okVar_types rs rs' v : typeNames rs = typeNames rs' -> (forall d n, listed d n rs = listed d n rs') -> (forall P, stringsIn P rs = stringsIn P rs') -> (okVar rs v <-> okVar rs' v).
Proof. intros E1 E2 E3. unfold okVar. rewrite E1, !E3. split; intros (A & B); (split; [intros x I0; specialize (A x I0); rewrite ?E2 in *; exact A|exact B]). Qed.

(** ** What is collected at the end *)
Definition collected (rs : list record) (res : list (name * name)) (c : ctx) : Prop :=
  cTokens c = tokensNow rs res /\ cLayers c = layersOf rs /\ cNames c = nodeNames rs /\ cDefs c = map (definition rs) (nodeNames rs).
Definition fits (hd : list record) : Prop := Forall fitRecord hd /\ Forall solid hd /\ Forall named hd.
Lemma description_run hd nodes : fits hd -> Forall (fun r => ~ isNode r) hd -> Forall laterRecord nodes ->
  match iDescription compiles hd nodes start with
  | ROk _ c => groupsKept (hd ++ nodes) /\ exists res, valid compiles (hd ++ nodes) res /\ collected (hd ++ nodes) res c
  | RFail _ _ => forall res, groupsKept (hd ++ nodes) -> ~ valid compiles (hd ++ nodes) res
  | _ => False
  end.
Proof.
  intros (F1 & F2 & F3) N L. unfold iDescription, bind. pose proof (head_run compiles hd [] start (inv_start compiles) F1 N F2 F3) as H. cbn [app] in H.
  assert (VH : forall res, groupsKept (hd ++ nodes) -> valid compiles (hd ++ nodes) res -> headOk compiles hd /\ fitsIn hd /\ externs hd).
  { intros res KP [V1 V2 V3 V4 V5 V6 V7]. rewrite lt_kept in KP by exact L. rewrite regexps_regs, lt_regs in V1 by exact L. rewrite lt_defined in V2, V4 by exact L. rewrite lt_early in V4 by exact L. rewrite lt_undefined in V3 by exact L. unfold headOk, fitsIn, externs. repeat split; auto; [destruct (regs compiles [] hd); [discriminate|discriminate V1]|exact (proj1 (KP a p n q b H0 H1))|exact (proj2 (KP a p n q b H0 H1))|]. intros n I0. specialize (V3 n I0). rewrite lt_types in V3 by exact L. exact V3. }
  destruct (iRecords compiles hd start) as [u c1|e c1| |]; try exact H; [|intros res KP V; apply H, (VH res KP V)]. pose proof (finish_run compiles hd c1 H) as FN. destruct (finishTokens c1) as [u' c2|e c2| |]; try exact FN; [|intros res KP V; destruct (VH res KP V) as (_ & X1 & X2); destruct FN as [(FN & _)|(_ & p & n & q & FN1 & _ & FN2 & _)]; [exact (FN X1)|]; apply FN2, X2; rewrite FN1; apply in_or_app; right; left; reflexivity]. destruct FN as (LM & EX & res & RG & S).
  assert (LY : layersOf hd = layersOf hd ++ layersOf []) by (symmetry; apply app_nil_r). rewrite LY in S.
  assert (S' : St hd res (mentioned []) (usedLiterals []) (defsOf hd (firsts (mentioned nodes)) (firsts (stringsIn any hd ++ usedLiterals nodes)) []) (layersOf hd ++ layersOf []) c2) by exact S.
  pose proof (nodes_run compiles hd res (firsts (mentioned nodes)) (firsts (stringsIn any hd ++ usedLiterals nodes)) nodes [] c2 eq_refl eq_refl S' (NoDup_nil _) L) as R. cbn [app] in R.
  assert (OKS : Forall (okRecord hd) nodes <-> ((forall n l x, In (RNode n l) (hd ++ nodes) -> In x (seqTypes l) -> In x (typeNames (hd ++ nodes)) /\ listed DSide x (hd ++ nodes) = false /\ listed DError x (hd ++ nodes) = false) /\ (stringsIn (dirEqb DLiteral) (hd ++ nodes) <> [] -> forall s, In s (usedLiterals (hd ++ nodes)) -> In s (stringsIn any (hd ++ nodes))))).
  { rewrite lt_typeNames, !lt_strings, hd_used by assumption. rewrite Forall_forall. split.
    - intros A. split.
      + intros n l x I0 IX. rewrite !lt_listed by exact L. apply in_app_iff in I0. destruct I0 as [I0|I0]; [rewrite Forall_forall in N; destruct (N _ I0 I)|]. apply (A _ I0). exact IX.
      + intros NE s I0. unfold usedLiterals in I0. apply flat_In in I0. destruct I0 as (r & I0 & IS). destruct r as [d args|n ps|n ps|y|n l]; try destruct IS. apply (A _ I0); [exact NE|exact IS].
    - intros (A & B) r I0. destruct r as [d args|n ps|n ps|y|n l]; cbn [okRecord]; auto. split.
      + intros x IX. specialize (A n l x (in_or_app _ _ _ (or_intror I0)) IX). rewrite !lt_listed in A by exact L. exact A.
      + intros NE s IS. apply B; [exact NE|]. unfold usedLiterals. apply flat_In. exists (RNode n l). split; [exact I0|exact IS]. }
  destruct (iRecords compiles nodes c2) as [u'' c3|e c3| |]; try exact R.
  - destruct R as (R1 & R2 & [B1 B2 B3 B4 B5 B6 B7 B8 B9 B10]). apply OKS in R2. destruct R2 as (R2 & R3). split; [apply lt_kept; [exact L|apply H]|]. exists res. split.
    + constructor; auto.
      * rewrite regexps_regs, lt_regs by exact L. exact RG.
      * rewrite lt_defined by exact L. apply (v_types _ _ _ H).
      * intros n I0. rewrite lt_undefined in I0 by exact L. rewrite lt_types by exact L. apply EX, I0.
      * rewrite lt_defined, lt_early by exact L. exact LM.
      * rewrite hd_defined by exact N. exact R1.
    + split; [|split; [|split]].
      * rewrite B1. unfold types, tokensNow, literals. rewrite lt_undefined, lt_strings, hd_used by assumption. f_equal; apply map_ext; intros x; symmetry; [apply lt_typeToken|apply lt_literalToken]; exact L.
      * rewrite B6, layersOf_app. reflexivity.
      * rewrite B7, hd_names by exact N. reflexivity.
      * rewrite B8, hd_names by exact N. apply map_ext. intros x. unfold defsOf, definition. change (fun r => match r with RNode n' _ => nameEqb x n' | _ => false end) with (defines x). rewrite hd_find by exact N. destruct (find (defines x) nodes) as [r|]; [|reflexivity]. destruct r as [d args|n ps|n ps|y|n l]; try reflexivity. f_equal. unfold definitionOf, seqW. f_equal. apply map_ext. intros i. f_equal. apply map_ext. intros v. rewrite chunk_W, hd_names by exact N. unfold literals. rewrite lt_strings, hd_used by assumption. apply chunkW_types. symmetry. apply lt_typeNames, L.
  - intros res' _ [V1 V2 V3 V4 V5 V6 V7]. apply R. split; [rewrite hd_defined in V5 by exact N; exact V5|]. apply OKS. split; assumption.
Qed.

(** ** Records written with proper tokens *)
Lemma parts_solid ts ps : Forall lexed ts -> Forall2 spPart ts ps -> Forall (fun p => match p with PRegexp re => re <> [] | _ => True end) ps.
Proof.
  intros F H. induction H as [|t p ts ps SP _ IH]; constructor; inversion F as [|? ? LT FT]; subst; [|apply IH, FT]. destruct SP; [|exact I]. inversion LT as [| | | | | | |s NE E|]; subst. apply app_inj_tail in E. destruct E as (<- & _). exact NE.
Qed.
Lemma args_fit Q d ts args : Forall2 (spArg Q d) ts args -> Forall (fitArg d) args.
Proof. induction 1 as [|t a ts args H _ IH]; constructor; [|exact IH]. destruct H; cbn; assumption. Qed.
Lemma record_fits Q ts r : Forall lexed ts -> spRecord Q ts r -> fitRecord r /\ solid r /\ named r.
Proof.
  intros F H. destruct H as [d ts args H|n ts ps NE H|n ts ps NN NE H|n ts l H|n ts l H]; cbn; auto.
  - split; [eapply args_fit, H|auto].
  - inversion F as [|? ? _ F1]; subst. inversion F1 as [|? ? _ F2]; subst. apply Forall_app in F2. destruct F2 as (F2 & _). split; [exact I|]. split; [split; [exact NE|eapply parts_solid; eassumption]|exact I].
  - inversion F as [|? ? _ F1]; subst. inversion F1 as [|? ? _ F2]; subst. apply Forall_app in F2. destruct F2 as (F2 & _). split; [exact I|]. split; [split; [exact NE|eapply parts_solid; eassumption]|exact NN].
Qed.
Lemma records_fit Q ts rs : Forall lexed ts -> spRecords Q ts rs -> fits rs.
Proof.
  intros F H. induction H as [|ts r ts' l SR _ IH]; [repeat split; constructor|]. apply Forall_app in F. destruct F as (F1 & F2). destruct (IH F2) as (A & B & D). destruct (record_fits _ _ _ F1 SR) as (A1 & B1 & D1). repeat split; constructor; assumption.
Qed.
Lemma fits_app a b : fits (a ++ b) -> fits a.
Proof. intros (A & B & D). rewrite Forall_app in *. unfold fits. tauto. Qed.
(** ** Conditions on the order of directives *)
Definition tidy (rs : list record) : Prop := groupsApart rs /\ reservedFirst rs.
Lemma reservedNow_first rs s : Forall fitRecord rs -> reservedFirst rs -> reservedNow s rs = mem s (stringsIn (dirEqb DReserved) rs).
Proof.
  induction rs as [|r rs IH] using rev_ind; intros F R; [reflexivity|]. apply Forall_app in F. destruct F as (F1 & F2). apply Forall_inv in F2. assert (R' : reservedFirst rs) by (intros a args b -> ; apply (R a args (b ++ [r])); rewrite <- app_assoc; reflexivity).
  specialize (IH F1 R'). rewrite reservedNow_app, stringsIn_app, mem_app, <- IH. destruct r as [d args|n ps|n ps|y|n l]; try (cbn; rewrite orb_false_r; destruct (mem s (stringsIn any rs)) eqn:M; [reflexivity|symmetry; apply reservedNow_none, M]).
  cbn [reservedNow]. rewrite !stringsIn_dir. cbn [any]. destruct (mem s (stringsIn any rs)) eqn:M.
  - destruct (dirEqb DReserved d) eqn:D; [|symmetry; apply orb_false_r]. destruct (mem s (flat argString args)) eqn:MA; [|symmetry; apply orb_false_r]. rewrite orb_true_r. destruct d; try discriminate. rewrite IH. apply mem_In. apply mem_In in M, MA. apply flat_In in MA. destruct MA as (a & IA & JA). destruct a as [m|m]; [destruct JA|]. destruct JA as [-> |[]]. destruct (strings_two s rs F1 M) as [Y|Y]; [exact Y|]. destruct (R rs args [] eq_refl s IA Y).
  - rewrite (reservedNow_none s rs M). cbn [orb]. destruct (mem s (flat argString args)) eqn:MA; destruct (dirEqb DReserved d); rewrite ?MA; reflexivity.
Qed.
Lemma tokens_tidy rs res : Forall fitRecord rs -> tidy rs -> tokensNow rs res = tokensOf rs res.
Proof.
  intros F (A & B). unfold tokensNow, tokensOf. f_equal; apply map_ext; intros x; [unfold typeTokenNow, typeToken; rewrite groupNow_apart by exact A; reflexivity|unfold literalTokenNow, literalToken; rewrite reservedNow_first by assumption; reflexivity].
Qed.
Lemma ordered_split rs : ordered rs <-> exists hd nodes, rs = hd ++ nodes /\ Forall (fun r => ~ isNode r) hd /\ (exists r l, nodes = r :: l /\ isNode r) /\ Forall laterRecord nodes.
Proof.
  split.
  - intros (hd & root & rest & -> & N & R & L). exists hd, (root :: rest). split; [reflexivity|]. split; [exact N|]. split; [eauto|]. constructor; [left; exact R|exact L].
  - intros (hd & nodes & -> & N & (r & l & -> & R) & L). exists hd, r, l. inversion L; subst. auto.
Qed.
End R.
