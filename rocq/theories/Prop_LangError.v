(** C69: syntax errors of descriptions are reported at the first wrong token. *)
From Coq Require Import ZArith List Bool Lia String.
From Verif Require Import Base BaseProofs Grammar LangBuild LangTypes LangString LangStringSpec LangText LangTextSpec LangTextFuel LangTextTotal LangDescSpec LangDescParse LangErrorLocal LangErrorSteps LangErrorViable LangErrorForward LangErrorTail LangErrorSpec Prop_LangText Prop_LangDesc.
From Verif Require DescLexer DescLexerSpec DescLexerProofs Prop_DescLexer.
Import ListNotations.
Open Scope Z_scope.

Lemma filler_lexed q : Forall filler q -> Forall lexed q /\ Forall (fun t => tKind t <> KString) q.
Proof.
  intros F. split; (eapply Forall_impl; [|exact F]); intros t [->|(b & O & ->)]; try discriminate; [|constructor; exact O]. constructor. exists 97, []. split; [reflexivity|]. split; [unfold letter; lia|constructor].
Qed.
Lemma readable_app a b : readable (a ++ b) <-> readable a /\ readable b.
Proof.
  unfold readable. rewrite Forall_app. split.
  - intros ((A & B) & S). split; (split; [assumption|]); intros t I0; apply S, in_or_app; auto.
  - intros ((A & SA) & B & SB). split; [auto|]. intros t I0. apply in_app_or in I0. destruct I0; auto.
Qed.
Lemma filler_readable q : Forall filler q -> readable q.
Proof. intros F. destruct (filler_lexed q F) as (L & N). split; [exact L|]. intros t I0 K. rewrite Forall_forall in N. destruct (N t I0 K). Qed.
Lemma filler_dec q : Forall filler q -> map dec q = q.
Proof. intros F. destruct (filler_lexed q F) as (_ & N). clear F. induction N as [|t q K N IH]; [reflexivity|]. cbn [map]. rewrite IH, (dec_other t K). reflexivity. Qed.
Lemma begun_begins pre : readable pre -> begun spDesc (map dec pre) -> canBegin pre.
Proof.
  intros R (q & rs & F & S & O). exists q. assert (RD : readable (pre ++ q)) by (apply readable_app; split; [exact R|apply filler_readable, F]). split; [exact RD|]. exists rs. split; [|exact O]. apply (records_dec _ _ (readable_decodes _ RD)). rewrite map_app, (filler_dec q F). exact S.
Qed.
Lemma shown_dec t : readable [t] -> shown t (dec t).
Proof.
  intros R. split; [apply dec_other|]. intros K. destruct R as (L & S). destruct (S t (or_introl eq_refl) K) as (s & H). pose proof (readable_decodes [t] (conj L S)) as D. inversion D as [|? ? Dt _]; subst. destruct (proj1 (dec_string t s Dt) H) as (q & _ & E). eauto.
Qed.
Section R.
Variable compiles : name -> bool.
Notation read f input := (readDescription compiles f (newContext input TEnd)).
(** There are no syntax errors in descriptions. *)
Lemma no_error f input e c : description input -> read f input = RFail e c -> ~ syntax e.
Proof.
  intros (RD & rs & S & O) H. pose proof (readable_decodes _ RD) as D. pose proof (safe_description compiles (map dec input) rs f (newContext input TEnd) (conj (proj1 (records_dec _ _ D) S) O) (at_start _ TEnd D ltac:(discriminate))) as X. rewrite H in X. exact X.
Qed.
Lemma suffix_split input r p t ts' : input = r ++ ts' -> map dec input = p ++ t :: map dec ts' -> exists pre t0, input = pre ++ t0 :: ts' /\ map dec pre = p /\ dec t0 = t.
Proof.
  intros -> E. rewrite map_app in E. replace (p ++ t :: map dec ts') with ((p ++ [t]) ++ map dec ts') in E by (rewrite <- app_assoc; reflexivity). apply app_inv_tail in E. apply map_eq_app in E. destruct E as (pre & x & -> & <- & E). destruct x as [|t0 [|? ?]]; try discriminate. injection E as <-. exists pre, t0. rewrite <- app_assoc. auto.
Qed.
(** An error at a token: reading stops right after the first wrong one.  An error at the end of the text: it is cut. *)
Theorem read_error_partial f input e c : readable input -> plainArguments input -> read f input = RFail e c ->
  (forall t, wrongToken e t -> exists pre t0, input = pre ++ t0 :: cInput c /\ shown t0 t /\ firstWrong pre t0) /\
  (e = RE_eof -> canBegin input /\ ~ description input).
Proof.
  intros RD PA H. pose proof (readable_decodes _ RD) as D. pose proof (ready_start input D) as R. split.
  - intros t W. assert (SE : syntax e) by (right; exists t; exact W). destruct (viable_description compiles f _ _ _ _ SE R (dec_plain _ PA) H) as (p & [(-> & _ & _)|(t' & ts' & W' & E & EI & FR)] & B); [destruct W; discriminate|].
    assert (t' = t) as -> by (destruct W as [-> | ->], W' as [W'|W']; congruence). destruct (l_description compiles f) as [LM _]. pose proof (LM (newContext input TEnd)) as MV. rewrite H in MV. destruct MV as ((r & MV) & _). cbn [newContext cInput] in MV. rewrite <- EI in E. destruct (suffix_split _ _ _ _ _ MV E) as (pre & t0 & EQ & <- & <-).
    exists pre, t0. split; [exact EQ|]. assert (RR : readable pre /\ readable (t0 :: cInput c)) by (apply readable_app; rewrite <- EQ; exact RD). destruct RR as (RP & RT). apply (readable_app [t0]) in RT. destruct RT as (RT & _). split; [apply shown_dec, RT|]. split; [apply begun_begins; assumption|].
    intros (q & Q). rewrite <- app_assoc in Q. cbn [app] in Q. rewrite EQ in H. destruct (same_error compiles f pre t0 (cInput c) q e c H eq_refl (proj2 FR)) as (c' & H'). exact (no_error _ _ _ _ Q H' SE).
  - intros ->. assert (SE : syntax RE_eof) by (left; reflexivity). destruct (viable_description compiles f _ _ _ _ SE R (dec_plain _ PA) H) as (p & [(_ & -> & _)|(t' & ts' & [W'|W'] & _)] & B); try discriminate. split; [apply begun_begins; assumption|]. intros DS. exact (no_error _ _ _ _ DS H SE).
Qed.
End R.
(** The same for the result of the whole call.  Missing: descriptions where names "token-name" and "string" are arguments of directives, see
    [syntax_error_refuted]; strings that stand for nothing. *)
Theorem syntax_error_partial compiles fullMatch toUpper fuel orders input e : readable input -> plainArguments input -> parseText compiles fullMatch toUpper fuel orders input TEnd = AReadError e ->
  (forall t, wrongToken e t -> exists pre t0 rest, input = pre ++ t0 :: rest /\ shown t0 t /\ firstWrong pre t0) /\
  (e = RE_eof -> canBegin input /\ ~ description input).
Proof.
  intros RD PA H. unfold parseText in H. destruct (readDescription compiles fuel (newContext input TEnd)) as [u c|e' c| |] eqn:E; try discriminate.
  - exfalso. destruct (orders (List.length (cDefs c))) as ((o1 & o2) & o3). match type of H with match ?x with _ => _ end = _ => destruct x end; discriminate.
  - injection H as ->. destruct (read_error_partial compiles fuel input e c RD PA E) as (A & B). split; [|exact B]. intros t W. destruct (A t W) as (pre & t0 & X). exists pre, t0, (cInput c). exact X.
Qed.
(** The same for texts.  [l] is the only way to split the text into tokens up to the end or a place that cannot be split (C59), [left] is what
    remains then. *)
Theorem text_syntax_error_partial compiles fullMatch toUpper fuel orders text l left e : DescLexerSpec.splits DescLexerProofs.taken text l left ->
  (forall t, In t l -> tKind t = KString -> exists s, stringOf t s) -> plainArguments l ->
  DescLexer.parseBytes compiles fullMatch toUpper fuel orders text = AReadError e ->
  (forall t, wrongToken e t -> exists pre t0 rest, l = pre ++ t0 :: rest /\ shown t0 t /\ firstWrong pre t0) /\
  (e = RE_eof -> left = [] /\ canBegin l /\ ~ description l).
Proof.
  intros SP ST PA H. assert (RD : readable l) by (split; [exact (Prop_DescLexer.split_lexed _ _ _ SP)|exact ST]).
  rewrite (Prop_DescLexer.text_read _ _ _ _ _ _ _ _ SP) in H. unfold DescLexerSpec.tailOf in H. destruct left as [|b left].
  - destruct (syntax_error_partial _ _ _ _ _ _ _ RD PA H) as (A & B). split; [exact A|]. intros E. split; [reflexivity|]. exact (B E).
  - unfold parseText in H. destruct (readDescription compiles fuel (newContext l TWrong)) as [u c|e' c| |] eqn:E; try discriminate.
    + exfalso. destruct (orders (List.length (cDefs c))) as ((o1 & o2) & o3). match type of H with match ?x with _ => _ end = _ => destruct x end; discriminate.
    + injection H as ->. split.
      * intros t W. assert (N : e <> RE_lexer) by (intros ->; destruct W; discriminate). destruct (read_error_partial compiles fuel l e _ RD PA (cut_error compiles _ _ _ _ E N)) as (A & _). destruct (A t W) as (pre & t0 & X). exists pre, t0. eexists. exact X.
      * intros ->. exfalso. pose proof (cut_error compiles _ _ _ _ E ltac:(discriminate)) as E'. assert (SE : syntax RE_eof) by (left; reflexivity).
        destruct (viable_description compiles fuel _ _ _ _ SE (ready_start l (readable_decodes _ RD)) (dec_plain _ PA) E') as (p & [(_ & _ & T)|(t' & ts' & [W'|W'] & _)] & _); discriminate.
Qed.
(** There is at most one first wrong token. *)
Theorem first_wrong_unique pre t rest pre' t' rest' : pre ++ t :: rest = pre' ++ t' :: rest' -> firstWrong pre t -> firstWrong pre' t' -> pre = pre' /\ t = t' /\ rest = rest'.
Proof.
  assert (P : forall a b, canBegin (a ++ b) -> canBegin a) by (intros a b (q & Q); exists (b ++ q); rewrite app_assoc; exact Q).
  revert pre'. intros pre' E (A & B) (A' & B'). assert (L : forall (l : list tok) t l' t' r r', l ++ t :: r = l' ++ t' :: r' -> (List.length l < List.length l')%nat -> exists x, l' = (l ++ [t]) ++ x).
  { clear. induction l as [|y l IH]; intros t l' t' r r' E LT; destruct l' as [|z l']; cbn in *; try lia; [injection E as -> E; exists l'; reflexivity|]. injection E as -> E. destruct (IH _ _ _ _ _ E ltac:(lia)) as (x & ->). exists x. reflexivity. }
  destruct (Nat.lt_trichotomy (List.length pre) (List.length pre')) as [LT|[EQ|LT]].
  - destruct (L _ _ _ _ _ _ E LT) as (x & ->). destruct (B (P _ _ A')).
  - assert (X : pre = pre' /\ t :: rest = t' :: rest'). { clear - E EQ. revert pre' E EQ. induction pre as [|y l IH]; intros [|z l'] E EQ; cbn in *; try discriminate; [auto|]. injection E as -> E. injection EQ as EQ. destruct (IH _ E EQ) as (-> & X). auto. } destruct X as (-> & X). injection X as -> ->. auto.
  - destruct (L _ _ _ _ _ _ (eq_sym E) LT) as (x & ->). destruct (B' (P _ _ A)).
Qed.
(** Correct descriptions are not refused for their syntax. *)
Theorem no_syntax_error compiles fullMatch toUpper fuel orders input e : description input -> parseText compiles fullMatch toUpper fuel orders input TEnd = AReadError e -> e <> RE_eof /\ forall t, ~ wrongToken e t.
Proof.
  intros DS H. unfold parseText in H. destruct (readDescription compiles fuel (newContext input TEnd)) as [u c|e' c| |] eqn:E; try discriminate.
  - exfalso. destruct (orders (List.length (cDefs c))) as ((o1 & o2) & o3). match type of H with match ?x with _ => _ end = _ => destruct x end; discriminate.
  - injection H as ->. pose proof (no_error compiles fuel input e c DS E) as N. split; [intros ->; apply N; left; reflexivity|]. intros t W. apply N. right. exists t. exact W.
Qed.

(** !side $s; $s = / /; $a = /a/; @x c('\x41', q); r = $a, "\x41" | ) ; *)
Module Example69.
  Definition b := bytes.
  Definition str : tok := mkT KString (b """\x41""").
  Definition good : list tok := [mkT KDir sideDir; mkT KToken (b "$s"); op 59; mkT KToken (b "$s"); op 61; mkT KRegexp (b "/ /"); op 59; mkT KToken (b "$a"); op 61; mkT KRegexp (b "/a/"); op 59;
    op 64; mkT KName (b "x"); mkT KName (b "c"); op 40; str; op 44; mkT KName (b "q"); op 41; op 59; mkT KName (b "r"); op 61; mkT KToken (b "$a"); op 44; str; op 124].
  Definition input := good ++ [op 41; op 59].
  Notation parse input := (parseText (fun _ => true) (fun _ _ => true) (fun t => t) 400 Prop_LangText.Example1.orders input TEnd).
  Example str_is : stringOf str [65].
  Proof.
    assert (B : body (b "\x41")) by (constructor; repeat constructor; discriminate). destruct (proj1 (proj1 (Prop_LangString.string_decoding_partial _ B) (34 :: [65] ++ [34]))) as (u & U & E); [vm_compute; reflexivity|]. injection E as E. apply (app_inj_tail [65] u 34 34) in E. destruct E as (<- & _). exact (SO_double (b "\x41") [65] U).
  Qed.
  Example good_readable : readable good.
  Proof.
    assert (L : lexed str) by (apply (LX_double (b "\x41")); constructor; repeat constructor; discriminate). split.
    - assert (G : forallb (fun t => match tKind t with KString => true | _ => lexed1 t end) good = true) by (vm_compute; reflexivity). rewrite forallb_forall in G. apply Forall_forall. intros t I0. specialize (G t I0). destruct (tKind t) eqn:K; try (apply lexed1_ok, G). clear G. unfold good in I0. cbn [In] in I0. repeat (destruct I0 as [<-|I0]; [try discriminate K; exact L|]). destruct I0.
    - intros t I0 K. unfold good in I0. cbn [In] in I0. repeat (destruct I0 as [<-|I0]; [try discriminate K; exists [65]; exact str_is|]). destruct I0.
  Qed.
  Example input_readable : readable input.
  Proof. apply readable_app. split; [exact good_readable|]. apply filler_readable. fills. Qed.
  Lemma no_words l : forallb (fun t => negb (nameEqb (tText t) tokenNameTok) && negb (nameEqb (tText t) stringTok)) l = true -> plainArguments l.
  Proof.
    intros H a d x t r -> _ _ (_ & W). rewrite forallb_forall in H. specialize (H t). rewrite !negb_andb, !negb_involutive in H || idtac. assert (I0 : In t (a ++ d :: x ++ t :: r)) by (apply in_or_app; right; right; apply in_or_app; right; left; reflexivity). specialize (H I0). apply andb_true_iff in H. destruct H as (H1 & H2).
    destruct W as [W|W]; rewrite W in *; discriminate.
  Qed.
  Example input_plain : plainArguments input. Proof. apply no_words. vm_compute. reflexivity. Qed.
  Example fails : parse input = AReadError (RE_unexpected (op 41)). Proof. vm_compute. reflexivity. Qed.
  (** ")" is the first wrong token, *)
  Example first : exists pre t0 rest, input = pre ++ t0 :: rest /\ shown t0 (op 41) /\ firstWrong pre t0.
  Proof. exact (proj1 (syntax_error_partial _ _ _ _ _ _ _ input_readable input_plain fails) (op 41) (or_introl eq_refl)). Qed.
  (** a string is shown without escapes, *)
  Example at_string : parse (good ++ [str; str]) = AReadError (RE_unexpected (mkT KString (b """A"""))). Proof. vm_compute. reflexivity. Qed.
  (** a text is cut, *)
  Example is_cut : parse good = AReadError RE_eof. Proof. vm_compute. reflexivity. Qed.
  Example cut : canBegin good /\ ~ description good.
  Proof. exact (proj2 (syntax_error_partial _ _ _ _ _ _ _ good_readable ltac:(apply no_words; vm_compute; reflexivity) is_cut) eq_refl). Qed.
  (** there is no such directive. *)
  Example unknown : parse [mkT KDir (b "!sides"); op 59] = AReadError (RE_unknownDirective (mkT KDir (b "!sides"))). Proof. vm_compute. reflexivity. Qed.
  Example described : description Prop_LangDesc.Example2.text.
  Proof. split; [exact Prop_LangDesc.Example2.readable_text|]. exists Prop_LangDesc.Example2.rs. exact Prop_LangDesc.Example2.spelled. Qed.
  (** The same in a text, before a place that cannot be split *)
  Definition text : list Z := Eval vm_compute in b ("!side $s; $s = / /; $a=/a/; @x c(""\x41"", q); r = $a, ""\x41"" | ); %")%string.
  Example text_split : exists left, DescLexerSpec.splits DescLexerProofs.taken text input left /\ left <> [].
  Proof.
    destruct (Prop_DescLexer.start_queue text) as (q & E & Q). destruct (Prop_DescLexer.split_some q text (S (List.length text)) 0 Q ltac:(vm_compute; split; discriminate) ltac:(vm_compute; reflexivity)) as (l & left & SP). exists left.
    pose proof (Prop_DescLexer.readAll_is text (S (List.length text)) q 0 l left Q ltac:(vm_compute; split; discriminate) ltac:(vm_compute; reflexivity) SP) as R.
    assert (R' : DescLexer.readAll (S (List.length text)) q = Some (input, TWrong)) by (vm_compute in E; injection E as <-; vm_compute; reflexivity). rewrite R' in R. injection R as <- TL. split; [exact SP|]. intros ->. discriminate.
  Qed.
  Example text_fails : DescLexer.parseBytes (fun _ => true) (fun _ _ => true) (fun t => t) 400 Prop_LangText.Example1.orders text = AReadError (RE_unexpected (op 41)). Proof. vm_compute. reflexivity. Qed.
  Example text_first : exists pre t0 rest, input = pre ++ t0 :: rest /\ shown t0 (op 41) /\ firstWrong pre t0.
  Proof. destruct text_split as (left & SP & _). exact (proj1 (text_syntax_error_partial _ _ _ _ _ _ _ _ _ SP (proj2 input_readable) input_plain text_fails) (op 41) (or_introl eq_refl)). Qed.
End Example69.
(** A word is taken for an argument of a directive; it is the next token that is reported. *)
Theorem syntax_error_refuted : exists input t, readable input /\ Example69.parse input = AReadError (RE_unexpected t) /\ forall pre t0 rest, input = pre ++ t0 :: rest -> shown t0 t -> ~ firstWrong pre t0.
Proof.
  exists [mkT KDir sideDir; mkT KName tokenNameTok; op 61], (op 61). split; [|split; [vm_compute; reflexivity|]].
  - split; [apply lexedb_ok; vm_compute; reflexivity|]. intros t [<-|[<-|[<-|[]]]] K; discriminate K.
  - intros pre t0 rest E (S1 & S2) ((q & (_ & rs & SP & _)) & _). assert (t0 = op 61) as ->.
    { destruct t0 as [k x]. destruct k; try (symmetry; apply S1; discriminate). destruct (S2 eq_refl) as (? & ? & _ & X). discriminate. }
    assert (pre = [mkT KDir sideDir; mkT KName tokenNameTok]) as ->.
    { destruct pre as [|a pre]; [discriminate|]. injection E as <- E. destruct pre as [|a pre]; [discriminate|]. injection E as <- E. destruct pre as [|a pre]; [reflexivity|]. injection E as <- E. destruct pre; discriminate. }
    apply (records_plain _ string_kind) in SP. refine (SP [] (mkT KDir sideDir) [] (mkT KName tokenNameTok) q eq_refl eq_refl (fun x => x) _). split; [reflexivity|left; reflexivity].
Qed.

Print Assumptions syntax_error_partial.
Print Assumptions text_syntax_error_partial.
Print Assumptions syntax_error_refuted.
Print Assumptions read_error_partial.
Print Assumptions first_wrong_unique.
Print Assumptions no_syntax_error.
