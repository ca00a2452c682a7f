(** Each node of a grammar can be finished from wherever it is, by its definitions (C65, C68): syntax errors of LL(1) descriptions are right. *)
From Coq Require Import String ZArith List Bool Lia Permutation Sorted.
From Verif Require Import Base BaseProofs Utf8 Regexp Grammar Queue SourceQueue SourceQueueSpec Prop_SourceQueue Lexer LexerSpec LexerProofs ParserNew ParserNewSpec ParserNewProofs
  ParserRegexp ParserRegexpProofs Prop_ParserNew TextParser.
From Verif Require Import LangBuild LangSpec Parser ParserSpec ParserSafeSpec RulesSpec LangTreeSpec ParserFlowSpec Prop_Parser LangNodes LangNodesSpec LangFirst LangDrop LangCompile LangTypes Prop_LangGrammar Prop_LangCompile LangText LangTextSpec Prop_LangText Prop_LangPredict LangDescSpec LangDescFacts LangDescUnique Prop_LangDesc PredictSpec Prop_Predict
  PredictCheck DescTreeSpec DescTree DescTokens Prop_DescTree DescLexer DescLexerSpec DescLexerProofs Prop_DescLexer TextParserSpec TextParserProofs Prop_TextParser ExpectSpec Prop_Expect DescExpectSpec Prop_TextExpect
  ParserDemo LangLLSpec LangLL LangLLBuild LangLLTables LangLLCheck Prop_LangLL LangFinishTables.
From Verif Require LangIdleTables PredictTree.
Import ListNotations.
Open Scope Z_scope.

(** ** Definitions *)
Section P.
Context {Tok Src W E Inst R : Type}.
Variable c : config Tok Src W E Inst R.
Notation g := (cGrammar c).
Notation tokenMatches := (tokenMatches (cType c) (cText c) (cUpper c) g).
Variable fullMatch : name -> name -> bool.
Variable tokens : list gtoken.
Variable layers : list glayer.
Variable names : list name.
Variable cs : list chunk.
Variables o1 o2 o3 : list Z.
Variable lexed : Tok -> Prop.
Notation defs := (map Some cs).
Notation compileD fuel := (compileDescription fullMatch (cUpper c) fuel o1 o2 o3 tokens layers names defs).
Hypothesis RW : readWell tokens names defs.
Hypothesis P1 : Permutation o1 (indexes (length defs)).
Hypothesis P2 : Permutation o2 (indexes (length defs)).
Hypothesis P3 : Permutation o3 (indexes (length defs)).
(** There is a token for everything the definitions mention, and each node stands for some (finite) string of tokens.  Then each node can be finished from
    any of its states. *)
Theorem definitions_finish_partial cfuel : sound c cs lexed -> compileD cfuel = Compiled g ->
  (forall d k, In d cs -> mentionsToken d k -> exists t, lexed t /\ tokenMatches t k) -> productive defs -> finishable c lexed.
Proof.
  intros SD CD TK PR. destruct (compile_any fullMatch (cUpper c) tokens layers names defs o1 o2 o3 RW P1 P2 P3 cfuel _ CD) as (_ & _ & AB & (cs' & firsts & EC & _ & FX & C & _) & _).
  apply some_same in EC. subst cs'. pose proof (is_plain c _ _ _ lexed RW SD AB firsts FX) as PL.
  assert (RF : forall d i, In d cs -> mentions d i -> 0 <= i < zlen cs). { intros d i D M. rewrite <- zlen_map_cs. apply (mentions_range _ _ _ RW d i D M). }
  eapply (tables_finish c lexed firsts cs PL); [intros d D; apply (sd_defs _ _ _ SD d D)|exact RF|exact TK| |exact C].
  intros i I0. destruct (node_tree (Inst:=Inst) (R:=R) c lexed cs) with (i := i) as (T & CT & LT); auto; [intros d D; apply (sd_defs _ _ _ SD d D)|]. exists T. split; [|exact LT].
  apply (grammar_trees_exactly_partial (cType c) (cText c) (cUpper c) _ _ _ _ _ _ PL C), CT.
Qed.
End P.

(** ** From texts *)
Section M.
Context {S : Type} (content : S -> list Z) (same : S -> S -> bool).
Hypothesis sameOk : forall a b, same a b = true <-> a = b.
Context {W Err Inst R : Type} (wrap : lexError S -> Err).
Variable prefers : name -> list Z -> option Z.
Hypothesis PO : regexpsOk prefers.
Hypothesis PC : regexpsCut prefers.
Variable compiles : name -> bool.
Variable compilesAll : list name -> bool.
Variable orders : nat -> list Z * list Z * list Z.
Hypothesis anyOrders : forall n, let '(o1, o2, o3) := orders n in Permutation o1 (indexes n) /\ Permutation o2 (indexes n) /\ Permutation o3 (indexes n).
Variable c : config (token S) (queueState content) W Err Inst R.
Notation g := (cGrammar c).
Variable description : list Z.
Variable fuel : nat.
Variable rs : list record.
Variable res : list (name * name).
Variable ls : list plexer.
Variable SA : forall pl, In pl ls -> sane content pl.
Hypothesis MF : madeFrom content same wrap prefers compiles compilesAll orders c description fuel rs res ls SA.
Hypothesis GF : goodFor content prefers c rs res.
Notation tokens := (tokensNow rs res).
Notation ofLexer := (ofLexer prefers tokens).
Notation fm := (fullMatch prefers).
(** Everything used in the rules of the description exists: there are tokens of the types, there are tokens that are the literals, there are trees of the nodes. *)
Record supplied : Prop := mkSupplied {
  su_types : forall n l x, In (RNode n l) rs -> In x (seqTypes l) -> exists t, ofLexer t /\ usedAs (@tokType S) (@tokContent S) (cUpper c) rs t x;
  su_literals : forall s, In s (usedLiterals rs) -> exists t, ofLexer t /\ DescTreeSpec.literalOf (@tokType S) (@tokContent S) (cUpper c) rs t s;
  su_nodes : forall n, In n (nodeNames rs) -> exists T : tree (token S) Inst R, treeOf (@tokType S) (@tokContent S) (cUpper c) rs n T /\ forall t, In t (ParserSpec.leaves T) -> ofLexer t
}.
Theorem text_finishes_partial : supplied -> finishable c ofLexer.
Proof.
  intros [ST SL SN]. pose proof (mf_over _ _ _ _ _ _ _ _ _ _ _ _ _ _ MF) as OT.
  assert (CT : cType c = @tokType S) by apply (ot_type _ _ _ _ _ _ OT). assert (CX : cText c = @tokContent S) by apply (ot_text _ _ _ _ _ _ OT).
  destruct (described content same wrap prefers compiles compilesAll orders c description fuel rs res ls SA MF) as (input & D).
  pose proof (lexers_for content same wrap prefers PO PC compiles compilesAll orders c description fuel rs res ls SA MF GF) as LF.
  destruct (understood c compiles fm orders anyOrders fuel input TEnd rs D) as (res' & V & GT & RW & CD & ALL & LD & AB & firsts & FX & C1).
  pose proof (valid_unique compiles rs res res' (mf_valid _ _ _ _ _ _ _ _ _ _ _ _ _ _ MF) V) as EV. subst res'. pose proof (sound_of c compiles fm rs (gf_formed _ _ _ _ _ GF) ofLexer LF (gf_endless _ _ _ _ _ GF) (gf_solid _ _ _ _ _ GF) res V GT) as SD.
  pose proof (is_plain c _ _ _ ofLexer RW SD AB firsts FX) as PL. pose proof (res_names _ _ _ _ (vd_regexps _ _ _ V)) as ER.
  assert (LPL : forall t, ofLexer t -> plainToken (cType c) rs t) by (intros t; apply (lexed_plain c compiles fm rs ofLexer LF)).
  eapply (tables_finish c ofLexer firsts (defsOf rs) PL); [exact (gf_endless _ _ _ _ _ GF)| | | |exact C1].
  - intros d i I0 M. rewrite <- zlen_map_cs. apply (mentions_range _ _ _ RW d i I0 M).
  - intros d k I0 M. destruct (defs_in rs d I0) as (n & l & IN & ->). apply definition_token in M. destruct M as [(x & IX & ->)|(s & IX & ->)].
    + destruct (ST n l x IN IX) as (t & L & U). exists t. split; [exact L|]. destruct (vd_used _ _ _ V n l x IN IX) as (TX & _). apply (type_same (cType c) (cText c) (cUpper c) g rs res GT ER (vd_types _ _ _ V) t x (LPL t L) TX). rewrite CT, CX. exact U.
    + assert (U : In s (usedLiterals rs)) by (unfold usedLiterals; eapply flat_in; [exact IN|exact IX]). assert (IL : In s (literals rs)) by (apply firsts_In, in_or_app; right; exact U).
      destruct (SL s U) as (t & L & X). exists t. split; [exact L|]. apply (lit_same (cType c) (cText c) (cUpper c) g rs res GT ER t s (LPL t L) IL). rewrite CT, CX. exact X.
  - intros i I0. assert (LN : zlen (nodeNames rs) = zlen (defsOf rs)). { rewrite <- zlen_map_cs. unfold zlen. rewrite LD. reflexivity. }
    destruct (zget (nodeNames rs) i) as [n|] eqn:G; [|apply LangIdleTables.nth_error_zget_None in G; lia]. destruct (SN n (LangDrop.zget_In _ _ _ G)) as (T & TT & LT). exists T. split; [|exact LT].
    rewrite (zget_position _ _ _ (firsts_NoDup _) G). apply (description_trees_partial c compiles fm orders anyOrders fuel input TEnd rs D (gf_formed _ _ _ _ _ GF) n T); [intros t I1; apply LPL, LT, I1|]. rewrite CT, CX. exact TT.
Qed.
(** C65 for LL(1) descriptions: syntax errors are right, by the text of the description alone. *)
Theorem ll1_string_error_right_partial root tl s src w t0 pfuel l e p : nodesDefined rs = root :: tl -> ll1Text content prefers c rs res -> supplied -> calmHooks c ->
  stringQueue content s = Some (queueOf content src) -> splitInto prefers tokens 0 (content s) l -> parseFrom c pfuel (src, w) t0 = Fail e p ->
  rightErrorOf (E := Err) (Inst := Inst) (R := R) (treeOf (@tokType S) (@tokContent S) (cUpper c) rs root) ofLexer (counts rs) termName (termFits (@tokType S) (@tokContent S) (cUpper c) rs) eoiToken
    (filter (counts rs) (tokensAt tokens s 0 l)) e.
Proof.
  intros RT LT SU CH SQ SI PF. exact (ll1_string_error_partial content same sameOk wrap prefers PO PC compiles compilesAll orders anyOrders c description fuel rs res ls SA MF GF root tl s src w t0 pfuel l e p RT LT (text_finishes_partial SU) CH SQ SI PF).
Qed.
End M.

(** ** Non-vacuity *)
(** The description of Prop_LangPredict.v *)
Module Example1.
  Import Prop_LangPredict.Example1.
  Lemma tokens_are : gTokens (cGrammar conf) = tokens. Proof. vm_compute. reflexivity. Qed.
  Example tokens_ok d k : In d cs -> mentionsToken d k -> exists t, lexed t /\ tokenMatches (cType conf) (cText conf) (cUpper conf) (cGrammar conf) t k.
  Proof.
    intros D M. assert (C : k = 1 \/ k = 3).
    { apply chunkTokens_In in M. cbn in D. destruct D as [<-|[<-|[]]]; cbn in M; intuition. }
    destruct C as [->| ->].
    - exists (1, 97). split; [left; split; [cbn; lia|reflexivity]|]. exists [1; AnyToken]. split; [|left; reflexivity]. apply (K_type (cType conf)). intros i [e G _ ((lt & GL & LF & LN) & _)]. rewrite tokens_are in G, GL. injection G as <-. apply LangDrop.zget_In in GL. cbn in GL. destruct GL as [<-|[<-|[<-|[<-|[]]]]]; try discriminate LF. discriminate LN.
    - exists (2, 43). split; [left; split; [cbn; lia|reflexivity]|]. exists [3; 2; AnyToken]. split; [|left; reflexivity]. apply (K_literal (cType conf)).
      + econstructor; [rewrite tokens_are; reflexivity|reflexivity|]. split; [eexists; rewrite tokens_are; split; [reflexivity|split; reflexivity]|]. intros j (lt & GL & _). rewrite tokens_are in GL. apply zget_Some_inv in GL. change (zlen tokens) with 4 in GL. lia.
      + intros (d' & G & F). rewrite tokens_are in G. injection G as <-. discriminate F.
  Qed.
  Example productive_ok : productive (map Some cs).
  Proof.
    assert (X : produces (map Some cs) (CNode 1) [1]). { eapply P_nested; [reflexivity|]. apply P_once. apply (PS_cons _ (CTok 1) [] [1] []); constructor. }
    intros i I0. change (zlen (map Some cs)) with 2 in I0. assert (C : i = 0 \/ i = 1) by lia. destruct C as [->| ->]; exists [1]; [|exact X]. eapply P_nested; [reflexivity|]. apply P_once. apply (PS_cons _ (CNode 1) _ [1] []); [exact X|]. apply (PS_cons _ _ [] [] []); [apply P_never|constructor].
  Qed.
  Example finish_ok : finishable conf lexed.
  Proof. apply (definitions_finish_partial conf fullMatch tokens [] names cs [0; 1] [1; 0] [0; 1] lexed read_well) with (cfuel := 20%nat); try exact is_compiled; try exact sound_ok; try exact tokens_ok; try exact productive_ok; try reflexivity. apply perm_swap. Qed.
End Example1.
(** The description of Prop_TextParser.v, from its text *)
Module Example2.
  Import Prop_TextParser.Example1.
  Notation lexed := (ofLexer prefers (tokensNow rs res)).
  (** the tokens "ab" and "+" *)
  Definition ab : token (list Z) := mkToken 1 ""%string (b "ab") None 0.
  Definition plus : token (list Z) := mkToken 2 ""%string (b "+") None 0.
  Lemma ab_lexed : lexed ab. Proof. eapply Prop_TextExpect.Example1.piece_found; [vm_compute; reflexivity|reflexivity|reflexivity]. Qed.
  Lemma plus_lexed : lexed plus. Proof. eapply Prop_TextExpect.Example1.piece_found; [vm_compute; reflexivity|reflexivity|reflexivity]. Qed.
  Lemma ab_used : usedAs (@tokType _) (@tokContent _) (cUpper conf) rs ab (b "name").
  Proof. split; [reflexivity|]. intros s _. reflexivity. Qed.
  Definition node (n : name) := position n (nodeNames rs).
  Definition item : tree (token (list Z)) Z Z := Node (node (b "item")) None [] [] [Leaf ab].
  Lemma item_tree : treeOf (@tokType _) (@tokContent _) (cUpper conf) rs (b "item") item.
  Proof. eapply (NT_node _ _ _ _ node rs (b "item") [[VType (b "name")]] None [] [] [Leaf ab] [Leaf ab]); [right; right; right; right; right; left; reflexivity|apply WS_keep, WS_nil|]. apply (ST_more _ _ _ _ _ _ [VType (b "name")] [] [Leaf ab] []); [|constructor]. econstructor; [left; reflexivity|]. constructor. exact ab_used. Qed.
  Example supplied_ok : supplied content prefers conf rs res.
  Proof.
    constructor.
    - intros n l x IN IX. exists ab. split; [exact ab_lexed|]. assert (x = b "name") as ->; [|exact ab_used].
      repeat (destruct IN as [IN|IN]; [try discriminate IN; injection IN as <- <-; cbn in IX; repeat (destruct IX as [<-|IX]; [reflexivity|]); destruct IX|]). destruct IN.
    - intros s IS. exists plus. split; [exact plus_lexed|]. vm_compute in IS. destruct IS as [<-|[]]. exists (b "op"). split; [reflexivity|]. split; [right; reflexivity|]. split; [reflexivity|vm_compute; auto].
    - intros n IN. vm_compute in IN. destruct IN as [<-|[<-|[]]].
      + exists (Node (node (b "root")) None [] [] [item]). split; [|intros t [<-|[]]; exact ab_lexed].
        eapply (NT_node _ _ _ _ node rs (b "root") [[VNode (b "item")]; [VList Curly [[VLiteral (b "+")]; [VNode (b "item")]]]] None [] [] [item] [item]); [right; right; right; right; left; reflexivity|apply WS_keep, WS_nil|].
        apply (ST_more _ _ _ _ _ _ [VNode (b "item")] _ [item] []); [econstructor; [left; reflexivity|]; constructor; exact item_tree|].
        apply (ST_more _ _ _ _ _ _ _ [] [] []); [|constructor]. econstructor; [left; reflexivity|]. apply VT_never.
      + exists item. split; [exact item_tree|]. intros t [<-|[]]. exact ab_lexed.
  Qed.
  Example finish_ok : finishable conf lexed.
  Proof. exact (text_finishes_partial content nameEqb (fun e => e) prefers (trees_ok treeFor) cut (fun _ => true) (fun _ => true) orders Prop_LangText.Example1.any conf description 100 rs res ls SA made_ok good_ok supplied_ok). Qed.
  (** syntax errors: the example of Prop_TextExpect.v *)
  Example errors := fun s src l e p n => ll1_string_error_right_partial content nameEqb LangTextTotal.nameEqb_ok (fun e => e) prefers (trees_ok treeFor) cut (fun _ => true) (fun _ => true) orders Prop_LangText.Example1.any conf description 100 rs res ls SA made_ok good_ok
    (b "root") [b "item"] s src 0 eoiToken n l e p eq_refl Prop_LangLL.Example2.text_ok supplied_ok calm_ok.
End Example2.
(** root = $a | ($b, loop); loop = $c, loop; nothing is a loop, but the description is accepted.  "b a" is an error at "a", and "$c" is said to be expected, but there is no text that begins with "b". *)
Module Example3.
  Definition description : list Z := Eval vm_compute in (LangText.bytes "$a = /a/; $b = /b/; $c = /c/; root = $a | ($b, loop); loop = $c, loop;"%string).
  Definition g : grammar := Eval vm_compute in match DescLexer.parseBytes (fun _ => true) (fun _ _ => false) (fun x => x) 100 Prop_LangText.Example1.orders description with LangText.AGrammar g => g | _ => mkGrammar [] [] [] [] [] [] end.
  Definition c := Prop_ParserSafe.Example1.conf g [].
  Definition lexed (t : dTok) : Prop := 0 <= fst t < 3 \/ t = dEoi.
  Lemma cases j r : ruleOf g j r -> In (j, r) [(0, mkRule 0 (-1) (-1)); (0, mkRule 1 1 (-1)); (1, mkRule 2 (-1) 1); (2, mkRule 2 3 (-1)); (3, mkRule 2 (-1) 1)].
  Proof.
    intros (st & rules & multi & rs & G & SR & SM & HR & IR). pose proof (zget_Some_inv _ _ _ G) as R. change (zlen (gStates g)) with 4 in R.
    assert (C : j = 0 \/ j = 1 \/ j = 2 \/ j = 3) by lia. destruct C as [->|[->|[->| ->]]]; vm_compute in G; injection G as <-; vm_compute in SR; injection SR as <-; vm_compute in SM; injection SM as <-;
      inversion HR as [r0 I0 E0|m rs0 Im E1 E2 E3]; subst; cbn in *; intuition subst; cbn in *; intuition subst; auto 10.
  Qed.
  Ltac each H := apply cases in H; cbn in H; let HA := fresh "HA" in let HB := fresh "HB" in destruct H as [H|[H|[H|[H|[H|[]]]]]]; pose proof (f_equal fst H) as HA; pose proof (f_equal snd H) as HB; clear H; cbn [fst snd] in HA, HB; try discriminate HA; try subst; try clear HA; try clear HB.
  Lemma no_side t : ~ isSide (cType c) g (Some t).
  Proof.
    intros (t' & X & (d & G & F)). injection X as <-. pose proof (zget_Some_inv _ _ _ G) as R. change (zlen (gTokens g)) with 3 in R.
    assert (C : fst t = 0 \/ fst t = 1 \/ fst t = 2) by (change (fst t) with (cType c t); lia). change (cType c t) with (fst t) in G. destruct C as [C|[C|C]]; rewrite C in G; injection G as <-; discriminate F.
  Qed.
  Lemma matches (t : dTok) k : tokenMatches (cType c) (cText c) (cUpper c) g t k -> k = fst t \/ k = AnyToken.
  Proof.
    assert (NL : forall i, ~ literalFor (cType c) (cText c) (cUpper c) g t i).
    { intros i [d _ _ ((d' & G & F & N) & _)]. pose proof (zget_Some_inv _ _ _ G) as R. change (zlen (gTokens g)) with 3 in R.
      assert (C : i = 0 \/ i = 1 \/ i = 2) by lia. destruct C as [->|[->| ->]]; vm_compute in G; injection G as <-; discriminate F. }
    intros (keys & K & I0). inversion K as [|t' N|t' i L NR|t' i L RS]; subst; [|destruct (NL i L)..]. destruct I0 as [I0|[I0|[]]]; auto.
  Qed.
  (** the only tree is that of "a" *)
  Lemma only n T : derived (Inst := Z) (R := Z) (cType c) (cText c) (cUpper c) g n T -> n <> 1 /\ (n = 0 -> exists t, leaves T = [t] /\ fst t = 0).
  Proof.
    set (P := fun i (ks : list (tree dTok Z Z)) j => (i = 2 -> j = 2 \/ j = 3) /\
      (i = 0 -> (j = 0 /\ leavesL ks = []) \/ j = 1 \/ (j = FinalState /\ exists t, leavesL ks = [t] /\ fst t = 0))).
    revert n T. apply (derived_mind dTok Z Z (cType c) (cText c) (cUpper c) g P (fun n T => n <> 1 /\ (n = 0 -> exists t, leaves T = [t] /\ fst t = 0))).
    - intros i. split; [auto|]. intros ->. left. split; reflexivity.
    - intros i ks j t _ _ SD. destruct (no_side t SD).
    - intros i ks j t r _ (IH & IH') RU SN RD TM. apply matches in TM. split.
      + intros ->. specialize (IH eq_refl). each RU; cbn in *; try discriminate SN; auto; destruct IH; discriminate.
      + intros ->. specialize (IH' eq_refl). each RU; cbn in *; try discriminate SN; try (destruct IH' as [(IH' & _)|[IH'|(IH' & _)]]; discriminate IH').
        * right. right. split; [reflexivity|]. exists t. destruct IH' as [(_ & X)|[IH'|(IH' & _)]]; [|discriminate IH'..]. split; [unfold leavesL in *; rewrite map_app, concat_app, X; reflexivity|]. unfold AnyToken in TM. lia.
        * auto.
    - intros i ks j r _ _ RU SN RA. exfalso. each RU; discriminate.
    - intros i ks j r T _ _ RU SN _ (X & _). exfalso. each RU; cbn in *; try (apply SN; reflexivity); apply X; reflexivity.
    - intros i nt t0 hooks results kids N _ (IH & IH'). pose proof (zget_Some_inv _ _ _ N) as R. change (zlen (gNodes g)) with 2 in R. assert (C : i = 0 \/ i = 1) by lia. destruct C as [->| ->]; vm_compute in N; injection N as <-; cbn [gnFirst] in *.
      + split; [lia|]. intros _. destruct (IH' eq_refl) as [(X & _)|[X|(_ & X)]]; [discriminate X|discriminate X|rewrite PredictTree.leaves_node; exact X].
      + destruct (IH eq_refl); discriminate.
  Qed.
  Lemma nothing_begins v : ~ ExpectSpec.begins c lexed ((1, 8) :: v).
  Proof.
    intros (u & T & D & _ & F). destruct (only _ _ D) as (_ & X). destruct (X eq_refl) as (t & E & F0). rewrite E in F. cbn [filter] in F. destruct (core c t); [|discriminate F]. injection F as -> _. discriminate F0.
  Qed.
  Lemma fails : exists s, parseFrom c 20 ([(1, 8); (0, 7)], 0) (0, 0) = Fail (UnexpectedToken (0, 7) [36; 99]) s.
  Proof. eexists. vm_compute. reflexivity. Qed.
End Example3.
(** Nodes that stand for no text at all are accepted in descriptions; errors in them say that something is expected although nothing would do. *)
Theorem endless_node_refuted : exists description (c : config dTok (list dTok) Z Z Z Z) lexed fuel t t' x s,
  DescLexer.parseBytes (fun _ => true) (fun _ _ => false) (cUpper c) 100 Prop_LangText.Example1.orders description = LangText.AGrammar (cGrammar c) /\
  lexed t /\ lexed t' /\ parseFrom c fuel ([t; t'], 0) (0, 0) = Fail (UnexpectedToken t' x) s /\ ~ ExpectSpec.begins c lexed [t] /\ ~ couldFollow c lexed [t] x.
Proof.
  destruct Example3.fails as (s & F). exists Example3.description, Example3.c, Example3.lexed, 20%nat, (1, 8), (0, 7), [36; 99], s. split; [vm_compute; reflexivity|]. split; [left; cbn; lia|]. split; [left; cbn; lia|]. split; [exact F|].
  split; [apply Example3.nothing_begins|]. intros (k & (d & G & N) & H). assert (k = 2) as ->.
  { pose proof (zget_Some_inv _ _ _ G) as R. change (zlen (gTokens (cGrammar Example3.c))) with 3 in R. assert (C : k = 0 \/ k = 1 \/ k = 2) by lia. destruct C as [->|[->| ->]]; [exfalso..|reflexivity]; vm_compute in G; injection G as <-; discriminate N. }
  apply (Example3.nothing_begins [(2, 0)]). apply (H (2, 0)); [left; cbn; lia|]. exists [2; AnyToken]. split; [|left; reflexivity]. apply (K_type (cType Example3.c)). intros i [e _ _ ((lt & GL & LF & LN) & _)]. apply LangDrop.zget_In in GL. destruct GL as [<-|[<-|[<-|[]]]]; discriminate LF.
Qed.
Print Assumptions definitions_finish_partial.
Print Assumptions text_finishes_partial.
Print Assumptions ll1_string_error_right_partial.
Print Assumptions endless_node_refuted.
