(** C76: what the utility llxgen does with files. *)
From Coq Require Import String ZArith List Bool Lia.
From Verif Require Import Base BaseProofs Grammar Gen Llxgen LlxgenSpec LlxgenProofs.
From Verif Require Prop_Gen.
Import ListNotations.
Local Open Scope list_scope.
Open Scope Z_scope.

Section Files.
Variable isPrint : Z -> bool.
Variable parse : list Z -> list Z -> option grammar.
Variable json : grammar -> option (list Z).
Variable abs : list Z -> option (list Z).
Variable place : list Z -> list Z.
Variable writes : list Z -> list Z -> written.
(** filepath.Abs *)
Hypothesis abs_ok : forall n a, abs n = Some a -> exists r, a = bytes "/" ++ r.
Notation run := (llxgen isPrint parse json abs place writes).

Lemma go_text items out g text : ~ In IJson items -> (exists t, goText isPrint abs (fold_left setItem items noOptions) out g = Some (Some t) /\ t = text) <-> translation isPrint json abs items out g text.
Proof.
  intros NJ. destruct (pkg_flag items) as (PG & PN). destruct (var_flag items) as (VG & VN). set (o := fold_left setItem items noOptions) in *.
  assert (V : forall d t, makeGo isPrint [] d (oVar o) g = Some (inl t) <-> exists v, variableIs items g v /\ makeGo isPrint [] d v g = Some (inl t)).
  { intros d t. destruct (oVar o) as [|b r] eqn:EV.
    - split.
      + intros H. unfold makeGo in H. destruct (zget (gNodes g) 0) as [n|] eqn:EN; [|discriminate]. cbn [obind] in H. exists (gnName n). split; [right; split; [apply VN; reflexivity|eauto]|]. unfold makeGo. rewrite EN. cbn [obind]. destruct (gnName n); exact H.
      + intros (v & [(N & G)|(_ & n & EN & ->)] & H); [apply VG in G; congruence|]. unfold makeGo in H |- *. rewrite EN in H |- *. cbn [obind] in H |- *. destruct (gnName n); exact H.
    - split.
      + intros H. exists (b :: r). split; [|exact H]. left. split; [discriminate|]. destruct (text_flag IVar oVar ltac:(reflexivity) ltac:(intros ? [] N; try reflexivity; congruence) ltac:(intros []; [right; congruence|right; congruence|right; congruence|left; eauto]) eq_refl items) as [G|(_ & E)]; [fold o in G; rewrite EV in G; exact G|fold o in E; congruence].
      + intros (v & [(N & G)|(G & _)] & H); [apply VG in G; rewrite G; exact H|apply VN in G; discriminate]. }
  unfold goText. destruct (oPkg o) as [|b r] eqn:EP.
  - assert (NG : notGiven IPkg items) by (apply PN; reflexivity). split.
    + intros (t & H & ->). right. split; [exact NJ|]. unfold packageDir in H. destruct (abs out) as [a|] eqn:EA; [|discriminate]. destruct (absolute a (abs_ok _ _ EA)) as [(d & D)|(f & -> & NF)].
      * pose proof (directory_is abs out a d EA D) as P. unfold packageDir in P. rewrite EA in P. rewrite P in H. cbn [obind] in H. rewrite makeGo_dir in H. destruct (makeGo isPrint [] d (oVar o) g) as [[t|]|] eqn:M; try discriminate. injection H as ->. apply V in M. destruct M as (v & VI & M). exists d, v. split; [right; split; [exact NG|eauto]|auto].
      * pose proof (directory_of_root abs out f EA NF) as P. unfold packageDir in P. rewrite EA in P. rewrite P in H. cbn [obind] in H. unfold makeGo in H. destruct (match oVar o with [] => _ | _ => _ end); discriminate.
    + intros [(J & _)|(_ & p & v & [(N & G)|(_ & a & EA & D)] & VI & M)]; [contradiction|apply PG in G; congruence|]. rewrite (directory_is abs out a p EA D). cbn [obind]. rewrite makeGo_dir. rewrite (proj2 (V p text)) by eauto. cbn [obind]. eauto.
  - assert (PI : forall p, packageIs abs items out p <-> p = b :: r).
    { intros p. split; [intros [(N & G)|(G & _)]; [symmetry; apply PG, G|apply PN in G; discriminate]|]. intros ->. left. split; [discriminate|]. destruct (text_flag IPkg oPkg ltac:(reflexivity) ltac:(intros ? [] N; try reflexivity; congruence) ltac:(intros []; [right; congruence|right; congruence|left; eauto|right; congruence]) eq_refl items) as [G|(_ & E)]; [fold o in G; rewrite EP in G; exact G|fold o in E; congruence]. }
    cbn [obind]. split.
    + intros (t & H & ->). right. split; [exact NJ|]. destruct (makeGo isPrint [] (b :: r) (oVar o) g) as [[t|]|] eqn:M; try discriminate. injection H as ->. apply V in M. destruct M as (v & VI & M). exists (b :: r), v. split; [apply PI; reflexivity|auto].
    + intros [(J & _)|(_ & p & v & P & VI & M)]; [contradiction|]. apply PI in P. subst p. rewrite (proj2 (V (b :: r) text)) by eauto. cbn [obind]. eauto.
Qed.
Lemma made items out g text : (if oJson (fold_left setItem items noOptions) then Some (json g) else goText isPrint abs (fold_left setItem items noOptions) out g) = Some (Some text) <-> translation isPrint json abs items out g text.
Proof.
  pose proof (json_flag items) as J. destruct (oJson (fold_left setItem items noOptions)) eqn:EJ.
  - assert (I : In IJson items) by (apply J; reflexivity). split; [intros H; left; split; [exact I|congruence]|intros [(_ & ->)|(N & _)]; [reflexivity|contradiction]].
  - assert (I : ~ In IJson items) by (intros I; apply J in I; discriminate). rewrite <- go_text by exact I. split; [eauto|intros (t & H & ->); exact H].
Qed.
Lemma run_call args items f out fs : call args items f -> outputIs items f out ->
  run args fs = match fs (place f) with
                | None => Exit 3 fs
                | Some src =>
                    match parse f src with
                    | None => Exit 3 fs
                    | Some g =>
                        match (if oJson (fold_left setItem items noOptions) then Some (json g) else goText isPrint abs (fold_left setItem items noOptions) out g) with
                        | None => Crash fs
                        | Some None => Exit 3 fs
                        | Some (Some content) => let (fs', ok) := writeFile place writes fs out content in Exit (if ok then 0 else 3) fs'
                        end
                    end
                end.
Proof.
  intros C OI. destruct (call_flags _ _ _ C) as (N & P). destruct (P noOptions) as (more & E). unfold llxgen. rewrite E. destruct f as [|b f]; [congruence|]. destruct (output_is items (b :: f)) as (out' & -> & U). apply U in OI. subst out'. reflexivity.
Qed.

(** The translation of the grammar described by the file is written to the output file, and to no other file. *)
Theorem translation_written args items f out fs src g text : call args items f -> outputIs items f out ->
  fs (place f) = Some src -> parse f src = Some g -> translation isPrint json abs items out g text -> writes out text = WAll ->
  exists fs', run args fs = Exit 0 fs' /\ fs' (place out) = Some text /\ forall p, p <> place out -> fs' p = fs p.
Proof.
  intros C OI S P T W. rewrite (run_call _ _ _ _ _ C OI), S, P. apply made in T. rewrite T. unfold writeFile. rewrite W. eexists. split; [reflexivity|]. unfold put. split; [destruct (list_eq_dec Z.eq_dec (place out) (place out)); [reflexivity|congruence]|]. intros p N. destruct (list_eq_dec Z.eq_dec p (place out)); [congruence|reflexivity].
Qed.
(** Success is told only then. *)
Theorem success_told args items f fs fs' : call args items f -> run args fs = Exit 0 fs' ->
  exists out src g text, outputIs items f out /\ fs (place f) = Some src /\ parse f src = Some g /\ translation isPrint json abs items out g text /\
    fs' (place out) = Some text /\ forall p, p <> place out -> fs' p = fs p.
Proof.
  intros C R. destruct (output_is items f) as (out & _ & U). assert (OI : outputIs items f out) by (apply U; reflexivity). rewrite (run_call _ _ _ _ _ C OI) in R. destruct (fs (place f)) as [src|] eqn:S; [|discriminate]. destruct (parse f src) as [g|] eqn:P; [|discriminate].
  match type of R with match ?x with _ => _ end = _ => destruct x as [[text|]|] eqn:T; try discriminate end. apply made in T. exists out, src, g, text. do 4 (split; [first [assumption|reflexivity]|]). unfold writeFile in R. destruct (writes out text); try discriminate. injection R as <-. unfold put. split; [destruct (list_eq_dec Z.eq_dec (place out) (place out)); [reflexivity|congruence]|]. intros p N. destruct (list_eq_dec Z.eq_dec p (place out)); [congruence|reflexivity].
Qed.
(** A wrong call is told with its own code, and no file is touched. *)
Theorem wrong_call_told args fs : wrongCall args -> run args fs = Exit 2 fs.
Proof. intros W. pose proof (wrong_flags args W noOptions) as X. unfold llxgen. destruct (parseFlags noOptions args) as [o [|[|b f] rest]| |]; try contradiction; reflexivity. Qed.
(** Whatever the arguments are: a failure leaves all files as they were, unless writing itself fails; help and wrong calls do so too. *)
Theorem failure_keeps_files args fs c fs' : run args fs = Exit c fs' ->
  (forall p, fs' p = fs p) \/
  (exists out text, (c = 0 /\ writes out text = WAll /\ fs' (place out) = Some text \/ c = 3 /\ exists n, writes out text = WSome n /\ fs' (place out) = Some (firstn n text)) /\
     forall p, p <> place out -> fs' p = fs p).
Proof.
  intros R. unfold llxgen in R. destruct (parseFlags noOptions args) as [o rest| |]; [|injection R as _ <-; auto..]. destruct (match rest with [] => [] | a :: _ => a end) as [|b f]; [injection R as _ <-; auto|]. destruct (outputName o (b :: f)) as [out|]; [|discriminate]. destruct (fs (place (b :: f))) as [src|]; [|injection R as _ <-; auto]. destruct (parse (b :: f) src) as [g|]; [|injection R as _ <-; auto].
  match type of R with match ?x with _ => _ end = _ => destruct x as [[text|]|]; [|injection R as _ <-; auto|discriminate] end. unfold writeFile in R.
  assert (PP : forall t, put place fs out t (place out) = Some t) by (intros t; unfold put; destruct (list_eq_dec Z.eq_dec (place out) (place out)); [reflexivity|congruence]).
  assert (PO : forall t p, p <> place out -> put place fs out t p = fs p) by (intros t p N; unfold put; destruct (list_eq_dec Z.eq_dec p (place out)); [congruence|reflexivity]).
  destruct (writes out text) as [| |n] eqn:W; injection R as <- <-; [right; exists out, text; split; [left; auto|apply PO]|left; reflexivity|right; exists out, text; split; [right; eauto|apply PO]].
Qed.
(** It does not crash: a grammar has nodes, and its tables are sound (LangSound.v). *)
Theorem utility_total : (forall f src g, parse f src = Some g -> gNodes g <> [] /\ Prop_Gen.multiOk g) ->
  forall args fs, exists c fs', run args fs = Exit c fs'.
Proof.
  intros PO args fs. unfold llxgen. destruct (parseFlags noOptions args) as [o rest| |]; [|eauto..]. destruct (match rest with [] => [] | a :: _ => a end) as [|b f]; [eauto|].
  assert (OO : exists out, outputName o (b :: f) = Some out) by (unfold outputName; destruct (oOut o); [destruct (stem_is (b :: f)) as (stem & _ & ->); cbn [obind]; eauto|eauto]). destruct OO as (out & ->).
  destruct (fs (place (b :: f))) as [src|]; [|eauto]. destruct (parse (b :: f) src) as [g|] eqn:P; [|eauto]. destruct (PO _ _ _ P) as (N & M).
  assert (G : exists r, (if oJson o then Some (json g) else goText isPrint abs o out g) = Some r).
  { destruct (oJson o); [eauto|]. unfold goText.
    assert (D : exists d, match oPkg o with [] => packageDir abs out | _ => Some (Some []) end = Some d).
    { destruct (oPkg o); [|eauto]. unfold packageDir. destruct (abs out) as [a|] eqn:EA; [|eauto]. destruct (absolute a (abs_ok _ _ EA)) as [(d & D)|(x & -> & NF)]; [pose proof (directory_is abs out a d EA D) as Q|pose proof (directory_of_root abs out x EA NF) as Q]; unfold packageDir in Q; rewrite EA in Q; eauto. }
    destruct D as ([d|] & ->); cbn [obind]; [|eauto]. pose proof (Prop_Gen.generator_total isPrint d (oPkg o) (oVar o) g N M) as GT.
    destruct (isIdent (Prop_Gen.packageOf d (oPkg o))); [destruct (isIdent (Prop_Gen.variableOf (oVar o) g)); [destruct GT as (t & ->)|rewrite GT]|rewrite GT]; cbn [obind]; eauto. }
  destruct G as ([text|] & ->); [|eauto]. destruct (writeFile place writes fs out text). eauto.
Qed.

(** The file of the description is kept when the output is another file.  Missing: see the refutation below. *)
Theorem description_kept_partial args items f out fs c fs' : call args items f -> outputIs items f out -> place out <> place f ->
  run args fs = Exit c fs' -> fs' (place f) = fs (place f).
Proof.
  intros C OI N R. rewrite (run_call _ _ _ _ _ C OI) in R. destruct (fs (place f)) as [src|] eqn:S; [|injection R as _ <-; exact S]. destruct (parse f src) as [g|]; [|injection R as _ <-; exact S].
  match type of R with match ?x with _ => _ end = _ => destruct x as [[text|]|]; [|injection R as _ <-; exact S|discriminate] end. unfold writeFile in R. destruct (writes out text); injection R as _ <-; try exact S; unfold put; (destruct (list_eq_dec Z.eq_dec (place f) (place out)); [congruence|exact S]).
Qed.
End Files.
(** The output has another name by default unless the name of the description ends with .go (or .json for -j). *)
Theorem output_named items f out s : notGiven IOut items -> suffixOf items s -> outputIs items f out -> (out = f <-> exists stem, f = stem ++ s).
Proof.
  intros NG SF [(N & G)|(_ & stem & s' & S & SF' & ->)].
  - destruct (out_flag items) as (A & B & _). apply A in G. apply B in NG. congruence.
  - assert (s' = s) as -> by (destruct SF as [(A & ->)|(A & ->)], SF' as [(B & ->)|(B & ->)]; auto; contradiction).
    assert (X : extension s) by (destruct SF as [(_ & ->)|(_ & ->)]; eexists; (split; [reflexivity|]); split; cbn; intuition discriminate).
    split; [intros <-; eauto|]. intros (st & ->). f_equal. apply (stem_fun (st ++ s)); [exact S|left; exists s; auto].
Qed.

Example wrong_calls : wrongCall [bytes "-p"; bytes "q"; bytes "--pkg=x"; bytes "x.llx"] /\ wrongCall [bytes "-j"; bytes "-o"].
Proof.
  split.
  - apply (W_item (IPkg (bytes "q")) [bytes "-p"; bytes "q"]); [exact (S_next _ (IPkg (bytes "q")) _ one_dash ltac:(auto))|]. apply (W_unknown (bytes "--") 112 (bytes "kg") (bytes "=x")); [constructor|discriminate|cbn; intuition discriminate|right; exists (bytes "x"); reflexivity|cbn; intuition discriminate].
  - apply (W_item IJson [bytes "-j"]); [exact (S_json _ one_dash)|]. apply (W_noValue (bytes "-") (IOut []) []); [constructor|auto].
Qed.

Module Example1.
Definition g : grammar := Prop_Gen.Example1.gr "root" [].
Definition pr := Prop_Gen.Example1.pr.
Definition parse (f src : list Z) : option grammar := match src with [] => None | _ => Some g end.
Definition json (g : grammar) : option (list Z) := Some (bytes "{}").
Definition abs (n : list Z) : option (list Z) := match n with 47 :: _ => Some n | _ => Some (bytes "/home/src/" ++ n) end.
Definition place (n : list Z) : list Z := match abs n with Some a => a | None => n end.
Definition writes (n t : list Z) := WAll.
Definition fs (name : string) : files := fun p => if list_eq_dec Z.eq_dec p (place (bytes name)) then Some (bytes "root = 'a';") else None.
Example abs_ok : forall n a, abs n = Some a -> exists r, a = bytes "/" ++ r.
Proof. intros n a. unfold abs. destruct n as [|b n]; [intros [= <-]; eexists; reflexivity|]. destruct (Z.eq_dec b 47) as [->|N]; [intros [= <-]; eexists; reflexivity|]. intros H. exists (tl a). destruct b as [|p|p]; try (injection H as <-; reflexivity). repeat (destruct p as [p|p|]; try (injection H as <-; reflexivity)). Qed.
Definition args : list (list Z) := [bytes "-p"; bytes "q"; bytes "--v=x"; bytes "x.llx"].
Definition items := [IPkg (bytes "q"); IVar (bytes "x")].
Example args_call : call args items (bytes "x.llx").
Proof.
  apply (C_item (IPkg (bytes "q")) [bytes "-p"; bytes "q"]); [exact (S_next _ (IPkg (bytes "q")) _ one_dash ltac:(auto))|]. apply (C_item (IVar (bytes "x")) [bytes "--v=x"]); [exact (S_same _ (IVar (bytes "x")) (bytes "x") two_dashes ltac:(auto))|]. apply C_file; [intros r; discriminate|discriminate].
Qed.
Example output_x : outputIs items (bytes "x.llx") (bytes "x.go").
Proof.
  right. split; [left; intros v [H|[H|[]]]; discriminate|]. exists (bytes "x"), (bytes ".go"). split; [left; exists (bytes ".llx"); split; [exists (bytes "llx"); split; [reflexivity|cbn; intuition discriminate]|reflexivity]|]. split; [right; split; [intros [H|[H|[]]]; discriminate|reflexivity]|reflexivity].
Qed.
Definition text : list Z := Eval vm_compute in match makeGo pr [] (bytes "q") (bytes "x") g with Some (inl t) => t | _ => [] end.
Example translation_x : translation pr json abs items (bytes "x.go") g text.
Proof.
  right. split; [intros [H|[H|[]]]; discriminate|]. exists (bytes "q"), (bytes "x").
  split; [left; split; [discriminate|apply (L_last _ _ [] (IPkg (bytes "q")) [IVar (bytes "x")]); [reflexivity|intros j b [<-|[]]; discriminate]]|]. split; [left; split; [discriminate|apply (L_last _ _ [IPkg (bytes "q")] (IVar (bytes "x")) []); [reflexivity|intros j b []]]|]. vm_compute. reflexivity.
Qed.
Example written_x : exists fs', llxgen pr parse json abs place writes args (fs "x.llx") = Exit 0 fs' /\ fs' (place (bytes "x.go")) = Some text /\ fs' (place (bytes "x.llx")) = Some (bytes "root = 'a';").
Proof. destruct (translation_written pr parse json abs place writes abs_ok args items _ _ (fs "x.llx") _ g text args_call output_x eq_refl eq_refl translation_x eq_refl) as (fs' & R & A & B). exists fs'. split; [exact R|]. split; [exact A|]. rewrite B by (vm_compute; discriminate). reflexivity. Qed.
Example grammar_ok : forall f src g, parse f src = Some g -> gNodes g <> [] /\ Prop_Gen.multiOk g.
Proof. intros f [|] g'; [discriminate|]. intros [= <-]. split; [discriminate|apply Prop_Gen.Example1.total_ok]. Qed.
(** a slash ends a name, a full stop in the name of a directory is no extension *)
Example names : outputName noOptions (bytes "a.b/c") = Some (bytes "a.b/c.go") /\ outputName noOptions (bytes "a.b/c.d.e") = Some (bytes "a.b/c.d.go") /\ outputName (setJson noOptions true) (bytes "c") = Some (bytes "c.json").
Proof. vm_compute. auto. Qed.
End Example1.

(** A description in a file named x.go is overwritten by its own translation, although no output is named and success is told. *)
Theorem description_kept_refuted : exists isPrint parse json abs place writes args items f fs fs', call args items f /\ (forall v, ~ In (IOut v) items) /\
  llxgen isPrint parse json abs place writes args fs = Exit 0 fs' /\ fs (place f) <> None /\ fs' (place f) <> fs (place f).
Proof.
  exists Example1.pr, Example1.parse, Example1.json, Example1.abs, Example1.place, Example1.writes, [bytes "-p"; bytes "q"; bytes "x.go"], [IPkg (bytes "q")], (bytes "x.go"), (Example1.fs "x.go"). eexists.
  split; [apply (C_item (IPkg (bytes "q")) [bytes "-p"; bytes "q"]); [exact (S_next _ (IPkg (bytes "q")) _ one_dash ltac:(auto))|apply C_file; [intros r; discriminate|discriminate]]|]. split; [intros v [H|[]]; discriminate|]. split; [reflexivity|]. split; vm_compute; discriminate.
Qed.
(** The package is said to have the name of the directory of the input file (llxgen.go:11); it has the name of the directory of the output file. *)
Theorem package_of_input_refuted : exists isPrint parse json abs place writes args f d fs fs' text,
  call args [IOut (bytes "/q/x.go")] f /\ abs f = Some f /\ dirName f d /\ llxgen isPrint parse json abs place writes args fs = Exit 0 fs' /\ fs' (place (bytes "/q/x.go")) = Some text /\
  (forall var g, makeGo isPrint [] d var g <> Some (inl text)).
Proof.
  exists Example1.pr, Example1.parse, Example1.json, Example1.abs, Example1.place, Example1.writes, [bytes "-o"; bytes "/q/x.go"; bytes "/p/x.llx"], (bytes "/p/x.llx"), (bytes "p"), (Example1.fs "/p/x.llx"). eexists _, _.
  split; [apply (C_item (IOut (bytes "/q/x.go")) [bytes "-o"; bytes "/q/x.go"]); [exact (S_next _ (IOut (bytes "/q/x.go")) _ one_dash ltac:(auto))|apply C_file; [intros r; discriminate|discriminate]]|]. split; [reflexivity|].
  split; [exists [], (bytes "x.llx"); split; [reflexivity|split; cbn; intuition discriminate]|]. split; [reflexivity|]. split; [vm_compute; reflexivity|]. intros var g H. unfold makeGo in H. destruct (match var with [] => _ | _ => _ end) as [v|]; [|discriminate]. cbn [obind] in H. change (isIdent (bytes "p")) with true in H. cbn [negb] in H. destruct (isIdent v); [|discriminate]. cbn [negb] in H. destruct (body _ g) as [b|]; [|discriminate]. cbn [obind] in H. injection H as H. unfold header in H.
  vm_compute in H. discriminate H.
Qed.
Print Assumptions translation_written.
Print Assumptions success_told.
Print Assumptions failure_keeps_files.
Print Assumptions utility_total.
Print Assumptions description_kept_partial.
Print Assumptions output_named.
Print Assumptions description_kept_refuted.
Print Assumptions package_of_input_refuted.
Print Assumptions wrong_call_told.
