(** C66, from the text of a description and the text of a source: what a user sees when a text is wrong. *)
From Coq Require Import String ZArith List Bool Lia Permutation.
From Verif Require Import Base BaseProofs Utf8 Regexp Grammar Queue SourceQueue SourceQueueSpec Prop_SourceQueue Lexer LexerSpec LexerProofs ParserNew ParserNewSpec ParserNewProofs
  ParserRegexp ParserRegexpProofs Prop_ParserNew TextParser.
From Verif Require Import LangBuild LangSpec Parser ParserSpec ParserSafeSpec ParserFlowSpec Prop_Parser LangNodes LangNodesSpec LangFirst LangDrop LangCompile LangTypes Prop_LangGrammar Prop_LangCompile LangText LangTextSpec Prop_LangText Prop_LangPredict LangDescSpec LangDescFacts LangDescUnique Prop_LangDesc PredictSpec Prop_Predict
  PredictCheck DescTreeSpec DescTree DescTokens Prop_DescTree DescLexer DescLexerSpec DescLexerProofs Prop_DescLexer TextParserSpec TextParserProofs Prop_TextParser ExpectSpec ExpectProofs ExpectCheck Prop_Expect DescExpectSpec Prop_TextExpect.
From Verif Require Source SourceSpec GenProofs.
From Verif Require Import Errors ErrorsSpec ErrorsProofs Prop_Errors.
Import ListNotations.
Open Scope Z_scope.

Section M.
Context {S : Type} (content : S -> list Z) (same : S -> S -> bool).
Hypothesis sameOk : forall a b, same a b = true <-> a = b.
Context {W Err Inst R : Type} (wrap : lexError S -> Err).
Variable prefers : name -> list Z -> option Z.
Hypothesis PO : regexpsOk prefers.
Hypothesis PC : regexpsCut prefers.
Variable compiles : name -> bool.
Variable compilesAll : list name -> bool.
Variable orders : nat -> list Z * list Z * list Z.
Hypothesis anyOrders : forall n, let '(o1, o2, o3) := orders n in Permutation o1 (indexes n) /\ Permutation o2 (indexes n) /\ Permutation o3 (indexes n).
Variable c : config (token S) (queueState content) W Err Inst R.
Variable description : list Z.
Variable fuel : nat.
Variable rs : list record.
Variable res : list (name * name).
Variable ls : list plexer.
Variable SA : forall pl, In pl ls -> sane content pl.
Hypothesis MF : madeFrom content same wrap prefers compiles compilesAll orders c description fuel rs res ls SA.
Hypothesis GF : goodFor content prefers c rs res.
Notation tokens := (tokensNow rs res).
Notation ofLexer := (ofLexer prefers tokens).
Notation isTree root := (treeOf (@tokType S) (@tokContent S) (cUpper c) rs root).
Notation whole root := (wholeOf (Inst := Inst) (R := R) (isTree root) ofLexer (counts rs)).
Notation begins root := (beginsOf (Inst := Inst) (R := R) (isTree root) ofLexer (counts rs)).
Notation couldFollow root := (couldFollowOf (Inst := Inst) (R := R) (isTree root) ofLexer (counts rs) termName (termFits (@tokType S) (@tokContent S) (cUpper c) rs)).
(** names of sources, what they are now *)
Variable sourceName : S -> list Z.
Variable sourceNow : S -> Source.src.
Hypothesis US : usedSources content sourceNow.
Hypothesis SZ : forall s, zlen (content s) < 2 ^ 63 - 1.
Hypothesis bytesOnly : forall s, Forall GenProofs.byteZ (content s).
Variable isPrint : Z -> bool.
Hypothesis PRT : forall r, isPrint r = true -> 32 <= r /\ r <> 65279.

(** the words of a text *)
Notation wordsText l := (concat (map snd l)).
Lemma split_text text l : splitInto prefers tokens 0 text l -> wordsText l = text.
Proof. induction 1; [reflexivity|]. cbn [map concat snd]. rewrite IHsplitInto. apply firstn_skipn. Qed.
Lemma split_types text l i w : splitInto prefers tokens 0 text l -> In (i, w) l -> 0 <= i < 64.
Proof. induction 1 as [|text i' d n l FT N I64 SP IH]; [intros []|]. intros [X|X]; [injection X as <- _|auto]. destruct FT as [(GT & _ & _) _]. apply zget_Some_inv in GT. lia. Qed.
(** the type name of words *)
Definition typeNameOf (i : Z) : string := match zget tokens i with Some d => nameText (gtName d) | None => EmptyString end.
Lemma len_app {A} (a b : list A) : zlen (a ++ b) = zlen a + zlen b.
Proof. unfold zlen. rewrite app_length. lia. Qed.
Lemma at_split (s : S) : forall l p a t u, filter (counts rs) (tokensAt tokens s p l) = a ++ t :: u -> exists before i word after, l = before ++ (i, word) :: after /\
  t = mkToken i (typeNameOf i) word (Some s) (p + zlen (wordsText before)) /\ a = filter (counts rs) (tokensAt tokens s p before).
Proof.
  induction l as [|(i, word) l IH]; intros p a t u; cbn [tokensAt filter]; [destruct a; discriminate|]. destruct (counts rs _) eqn:CO.
  - destruct a as [|a0 a]; cbn [app]; intros X; injection X as X1 X2.
    + exists [], i, word, l. subst t. cbn. rewrite Z.add_0_r. auto.
    + destruct (IH _ _ _ _ X2) as (before & j & v & after & -> & -> & ->). exists ((i, word) :: before), j, v, after. split; [reflexivity|]. cbn [map concat snd tokensAt filter]. rewrite CO, X1. rewrite len_app, Z.add_assoc. auto.
  - intros X. destruct (IH _ _ _ _ X) as (before & j & v & after & -> & -> & ->). exists ((i, word) :: before), j, v, after. split; [reflexivity|]. cbn [map concat snd tokensAt filter]. rewrite CO, len_app, Z.add_assoc. auto.
Qed.
Notation placeAt s before := (placeOf content sourceName (Some s) (zlen (wordsText before))).
Notation counted s before := (filter (counts rs) (tokensAt tokens s 0 before)).
Notation tokenAt s before i word := (mkToken i (typeNameOf i) word (Some s) (zlen (wordsText before))).

(** ParseString of a text that can be split into words, for an LL(1) description.  If it returns an error that is not of a hook, then
    - its code is 202, it tells the line and the column where a word starts, the type of the word, and its text (shortened); what is before
      the word is the beginning of something valid, with the word it is not; a token the message names could be there instead; or
    - its code is 201, it tells no place; the text is the beginning of something valid, the token the message names could follow it; or
    - its code is 306, it tells the line and the column where a word starts, and its type; what is before the word is valid, with the word it is
      the beginning of nothing valid. *)
Theorem string_error_value_partial root tl s src w t0 pfuel l e p : nodesDefined rs = root :: tl -> predictive c ofLexer -> finishable c ofLexer -> calmHooks c ->
  stringQueue content s = Some (queueOf content src) -> splitInto prefers tokens 0 (content s) l -> parseFrom c pfuel (src, w) t0 = Fail e p ->
  exists v, parserErrorValue sourceName sourceNow isPrint e = Some v /\
   ((exists before i word after u x, l = before ++ (i, word) :: after /\ content s = wordsText before ++ word ++ wordsText after /\ shortened word u /\
      tells v 202 (placeAt s before) [Says "unexpected "; Quoted (bytes (typeNameOf i)); Says " token ("; Quoted u; Says "), expecting "; Plain x] /\
      begins root (counted s before) /\ ~ begins root (counted s before ++ [tokenAt s before i word]) /\ couldFollow root (counted s before) x) \/
    (exists x, tells v 201 nowhere [Says "unexpected end of input, expecting "; Plain x] /\
      begins root (counted s l) /\ ~ whole root (counted s l) /\ couldFollow root (counted s l) x) \/
    (exists before i word after, l = before ++ (i, word) :: after /\ content s = wordsText before ++ word ++ wordsText after /\
      tells v 306 (placeAt s before) [Says "got "; Quoted (bytes (typeNameOf i)); Says " token after end of source"] /\
      whole root (counted s before) /\ ~ begins root (counted s before ++ [tokenAt s before i word]))).
Proof.
  intros RT PR FI CH SQ SI PF.
  pose proof (string_error_partial content same sameOk wrap prefers PO PC compiles compilesAll orders anyOrders c description fuel rs res ls SA MF GF root tl s src w t0 pfuel l e p RT PR FI CH SQ SI PF) as RE.
  pose proof (parser_error_value isPrint PRT content sourceName sourceNow US SZ e) as PV. pose proof (split_text _ _ SI) as TX.
  assert (OK : forall before i word after, l = before ++ (i, word) :: after -> tokOk (tokenAt s before i word) /\ content s = wordsText before ++ word ++ wordsText after).
  { intros before i word after EL. assert (CS : content s = wordsText before ++ word ++ wordsText after) by (rewrite <- TX, EL, map_app, concat_app; reflexivity). split; [|exact CS]. split.
    - pose proof (bytesOnly s) as BO. rewrite CS, !Forall_app in BO. apply BO.
    - cbn [tokType]. pose proof (split_types _ _ i word SI ltac:(rewrite EL; apply in_or_app; right; left; reflexivity)). unfold goInt. change (2 ^ 63) with 9223372036854775808. lia. }
  destruct e as [e|t x|t x|t|t]; cbn [rightErrorOf] in RE; try (destruct RE; fail).
  - destruct RE as (-> & A & B & C). destruct PV as (v & V & T). { split; [constructor|]. vm_compute. split; [discriminate|reflexivity]. } exists v. split; [exact V|]. right. left. exists x. auto.
  - destruct RE as (a & u & EF & A & B & C). destruct (at_split s _ _ _ _ _ EF) as (before & i & word & after & EL & -> & ->). cbn [Z.add] in *. destruct (OK _ _ _ _ EL) as (TO & CS).
    destruct PV as (v & u' & V & SH & T); [exact TO|]. exists v. split; [exact V|]. left. exists before, i, word, after, u', x. auto 10.
  - destruct RE as (a & u & EF & A & B). destruct (at_split s _ _ _ _ _ EF) as (before & i & word & after & EL & -> & ->). cbn [Z.add] in *. destruct (OK _ _ _ _ EL) as (TO & CS).
    destruct PV as (v & V & T); [exact TO|]. exists v. split; [exact V|]. right. right. exists before, i, word, after. auto 10.
Qed.
End M.

(** !side $space; $space = /[ ]+/; $name = /[a-z]+/; $op = /[+-]/; root = item, {'+', item}; item = $name; *)
Module Example1.
  Import Prop_TextParser.Example1 Prop_TextExpect.Example1.
  (** the sources are called "f"; nothing was asked about them *)
  Definition now (s : list Z) : Source.src := match Source.newSrc s with Some x => x | None => Source.mkSrc [] [] 0 end.
  Definition ascii (r : Z) : bool := (32 <=? r) && (r <? 127).
  Lemma ascii_ok r : ascii r = true -> 32 <= r /\ r <> 65279.
  Proof. unfold ascii. rewrite andb_true_iff, Z.leb_le, Z.ltb_lt. lia. Qed.
  (** what a user sees *)
  Example shown :
    match errorOf (parseFrom conf 60 (startAt (b "a + -b") _ eq_refl, 0) eoiToken) with
    | Some e => parserErrorValue (fun _ => b "f") now ascii e
    | None => None
    end = Some (mkLlxError 202 (b "unexpected ""op"" token (""-""), expecting $name in f at line 1 col 5") (b "f") 1 5).
  Proof. vm_compute. reflexivity. Qed.
  Example shown_end :
    match errorOf (parseFrom conf 60 (startAt (b "a +") _ eq_refl, 0) eoiToken) with
    | Some e => parserErrorValue (fun _ => b "f") now ascii e
    | None => None
    end = Some (mkLlxError 201 (b "unexpected end of input, expecting $name") [] 0 0).
  Proof. vm_compute. reflexivity. Qed.
  Example shown_more :
    match errorOf (parseFrom conf 60 (startAt (b "a b") _ eq_refl, 0) eoiToken) with
    | Some e => parserErrorValue (fun _ => b "f") now ascii e
    | None => None
    end = Some (mkLlxError 306 (b "got ""name"" token after end of source in f at line 1 col 3") (b "f") 1 3).
  Proof. vm_compute. reflexivity. Qed.
End Example1.
Print Assumptions string_error_value_partial.
