(** LL(1) descriptions have LL(1) tables (C68). *)
From Coq Require Import String ZArith List Bool Lia Permutation Sorted.
From Verif Require Import Base BaseProofs Utf8 Regexp Grammar Queue SourceQueue SourceQueueSpec Prop_SourceQueue Lexer LexerSpec LexerProofs ParserNew ParserNewSpec ParserNewProofs
  ParserRegexp ParserRegexpProofs Prop_ParserNew TextParser.
From Verif Require Import LangBuild LangSpec Parser ParserSpec ParserSafeSpec RulesSpec LangTreeSpec ParserFlowSpec Prop_Parser LangNodes LangNodesSpec LangFirst LangDrop LangCompile LangTypes Prop_LangGrammar Prop_LangCompile LangText LangTextSpec Prop_LangText Prop_LangPredict LangDescSpec LangDescFacts LangDescUnique Prop_LangDesc PredictSpec Prop_Predict
  PredictCheck DescTreeSpec DescTree DescTokens Prop_DescTree DescLexer DescLexerSpec DescLexerProofs Prop_DescLexer TextParserSpec TextParserProofs Prop_TextParser ExpectSpec Prop_Expect DescExpectSpec Prop_TextExpect
  ParserDemo LangLLSpec LangLL LangLLBuild LangLLTables LangLLCheck.
Import ListNotations.
Open Scope Z_scope.

(** Fewer tokens may be confused: the next token still tells what to do. *)
Lemma decided_mono defs (clash clash' : Z -> Z -> Prop) : (forall k k', clash' k k' -> clash k k') ->
  (forall A d, decided defs clash A d -> decided defs clash' A d) /\ (forall A l, decidedSeq defs clash A l -> decidedSeq defs clash' A l).
Proof.
  intros M. assert (AP : forall A B, apart clash A B -> apart clash' A B) by (intros A B H k k' X Y Z; exact (H k k' X Y (M _ _ Z))).
  apply decided_both; try (intros; constructor; auto; fail).
  intros A l _ IH PW OM. constructor; [exact IH| |].
  - clear - PW AP. induction PW as [|x l F _ IH]; constructor; [|exact IH]. revert F. apply Forall_impl. auto.
  - intros d d' D D' O. apply AP. exact (OM d d' D D' O).
Qed.
Lemma ll1_mono defs (clash clash' : Z -> Z -> Prop) : (forall k k', clash' k k' -> clash k k') -> ll1 defs clash -> ll1 defs clash'.
Proof. intros M H i d D. apply (proj1 (decided_mono defs clash clash' M)), H, D. Qed.

Section P.
Context {Tok Src W E Inst R : Type}.
Variable c : config Tok Src W E Inst R.
Notation g := (cGrammar c).
Notation tokenMatches := (tokenMatches (cType c) (cText c) (cUpper c) g).
Variable fullMatch : name -> name -> bool.
Variable tokens : list gtoken.
Variable layers : list glayer.
Variable names : list name.
Variable cs : list chunk.
Variables o1 o2 o3 : list Z.
(** tokens lexers may return *)
Variable lexed : Tok -> Prop.
Notation defs := (map Some cs).
Notation compileD fuel := (compileDescription fullMatch (cUpper c) fuel o1 o2 o3 tokens layers names defs).
(** Tokens of the description may be confused: they are the same, or some token of some source is both. *)
Definition mayClash (k k' : Z) : Prop := k = k' \/ 0 <= k /\ 0 <= k' /\ exists t, lexed t /\ tokenMatches t k /\ tokenMatches t k'.
(** Definitions the construction of states is right for (see C18, C19, C20); nothing is skipped twice (LangLLSpec.v). *)
Definition simple (d : chunk) : Prop := endless d = true /\ loopsApart d = true /\ skipsApart d false = true /\ skipsOnce d = true.

Hypothesis RW : readWell tokens names defs.
Hypothesis P1 : Permutation o1 (indexes (length defs)).
Hypothesis P2 : Permutation o2 (indexes (length defs)).
Hypothesis P3 : Permutation o3 (indexes (length defs)).

Lemma some_same {A} : forall l l' : list A, map Some l = map Some l' -> l = l'.
Proof. induction l as [|x l IH]; intros [|y m] H; try discriminate; [reflexivity|]. injection H as -> H. f_equal. apply IH, H. Qed.
Lemma tables_predict (clash : Z -> Z -> Prop) cfuel : (forall k, clash k k) -> (forall k k', clash k k' -> clash k' k) ->
  (forall t k k', lexed t -> 0 <= k -> 0 <= k' -> tokenMatches t k -> tokenMatches t k' -> clash k k') ->
  compileD cfuel = Compiled g -> (forall d, In d cs -> simple d) -> ll1 defs clash -> predictive c lexed.
Proof.
  intros CR CS CT CD SD LL. destruct (compile_any fullMatch (cUpper c) tokens layers names defs o1 o2 o3 RW P1 P2 P3 cfuel _ CD) as (_ & _ & _ & (cs' & firsts & EC & (_ & SO) & FX & C & _) & _).
  rewrite (some_same _ _ EC) in *. clear EC.
  assert (DI : forall d, In d cs -> exists i, LangNodesSpec.defined defs i d). { intros d I0. apply In_zget in I0. destruct I0 as (i & G). exists i. unfold LangNodesSpec.defined. rewrite LangFirst.zget_map, G. reflexivity. }
  assert (ID : forall i d, LangNodesSpec.defined defs i d -> In d cs). { intros i d G. unfold LangNodesSpec.defined in G. rewrite LangFirst.zget_map in G. destruct (zget cs i) eqn:X; [|discriminate]. injection G as ->. eapply LangDrop.zget_In, X. }
  eapply (ll_predictive c lexed firsts cs clash CR CS CT); [| |exact LL|exact C].
  - intros d I0. destruct (DI d I0) as (i & G). destruct (SD d I0) as (S1 & S2 & S3 & S4). split; [|exact S3]. split; auto.
    + apply (ds_written _ (rw_described _ _ _ RW) i d G).
    + intros j M. apply (ds_refers _ (rw_described _ _ _ RW) i j). exists d. auto.
  - intros i IR. split.
    + unfold firstsOf. destruct (zget firsts i) as [s|] eqn:G; [|constructor]. apply LangFirst.sorted_nodup, SO. eapply LangDrop.zget_In, G.
    + intros k K. apply (FX i k IR) in K. split; [exact K|]. destruct (firstToken_token defs) with (i := i) (t := k) as (j & d & G & M); [|exact K|].
      * intros j d G. apply (SD d (ID j d G)).
      * eapply (rw_tokens _ _ _ RW); eassumption.
Qed.
(** *** C68 *)
(** In every definition the next token tells what to do (LangLLSpec.v).  Then it tells which rule to take in every state of the tables. *)
Theorem definitions_predict_partial cfuel : compileD cfuel = Compiled g -> (forall d, In d cs -> simple d) -> ll1 defs mayClash -> predictive c lexed.
Proof.
  apply tables_predict.
  - intros k. left. reflexivity.
  - intros k k' [->|(K & K' & t & L & A & B)]; [left; reflexivity|right; split; [exact K'|]; split; [exact K|]; exists t; auto].
  - intros t k k' L K K' A B. right. split; [exact K|]. split; [exact K'|]. exists t. auto.
Qed.
(** A check of the condition: the same tokens; a literal and a type with a regular expression that matches it. *)
Theorem ll1_check_ok cfuel n : lexers c fullMatch tokens lexed -> compileD cfuel = Compiled g -> (forall d, In d cs -> endless d = true) ->
  ll1B defs (conflictOf fullMatch tokens) n = true -> ll1 defs mayClash.
Proof.
  intros LX CD SD H. pose proof (compile_any fullMatch (cUpper c) tokens layers names defs o1 o2 o3 RW P1 P2 P3 cfuel _ CD) as (_ & _ & _ & (cs' & firsts & EC & _ & _ & C & _) & _). apply some_same in EC. subst cs'.
  apply ll1_checked in H; [|intros i d G; apply (ds_written _ (rw_described _ _ _ RW) i d G)].
  eapply ll1_mono; [|exact H]. cbn beta. intros k k' [->|(K & K' & t & L & A & B)].
  - unfold conflictOf. rewrite Z.eqb_refl. reflexivity.
  - eapply (conflict_sound c fullMatch tokens layers names cs lexed RW LX firsts C); eauto; unfold AnyToken; lia.
Qed.
(** C49 for LL(1) definitions: the source is accepted if and only if its tokens are those of some tree of the definitions. *)
Theorem ll1_accepts_exactly_partial cfuel (fair : Src -> Prop) (view : Src -> list Tok) eoi w t0 :
  lexers c fullMatch tokens lexed -> sound c cs lexed -> compileD cfuel = Compiled g -> (forall d, In d cs -> skipsOnce d = true) -> ll1 defs mayClash ->
  calmHooks c -> willing c lexed fair view eoi -> fair (fst w) -> unreadOf c view -> cFullSource c = true ->
  (forall t, In t (view (fst w)) -> cType c t <> EoiTokenType) ->
  (exists n, forall fuel, (n <= fuel)%nat -> exists r s, parseFrom c fuel w t0 = Done r s) <->
  (exists T : tree Tok Inst R, LangTreeSpec.conforms (Inst:=Inst) (R:=R) tokenMatches (fun t => isSide (cType c) g (Some t)) cs RootNode T /\ (forall t, In t (ParserSpec.leaves T) -> lexed t) /\
     filter (core c) (ParserSpec.leaves T) = filter (core c) (view (fst w))).
Proof.
  intros LX SD CD SO LL CH WI FA UR FS NE. apply (description_accepts_exactly_partial c fullMatch tokens layers names cs o1 o2 o3 lexed RW P1 P2 P3 LX SD fair view eoi w t0 cfuel CD); auto.
  eapply definitions_predict_partial; [exact CD| |exact LL]. intros d D. destruct (sd_defs _ _ _ SD d D) as (_ & S1 & S2 & S3). split; [exact S3|]. split; [exact S1|]. split; [exact S2|apply SO, D].
Qed.
End P.

(** ** From texts *)
Section M.
Context {S : Type} (content : S -> list Z) (same : S -> S -> bool).
Hypothesis sameOk : forall a b, same a b = true <-> a = b.
Context {W Err Inst R : Type} (wrap : lexError S -> Err).
Variable prefers : name -> list Z -> option Z.
Hypothesis PO : regexpsOk prefers.
Hypothesis PC : regexpsCut prefers.
Variable compiles : name -> bool.
Variable compilesAll : list name -> bool.
Variable orders : nat -> list Z * list Z * list Z.
Hypothesis anyOrders : forall n, let '(o1, o2, o3) := orders n in Permutation o1 (indexes n) /\ Permutation o2 (indexes n) /\ Permutation o3 (indexes n).
Variable c : config (token S) (queueState content) W Err Inst R.
Notation g := (cGrammar c).
Variable description : list Z.
Variable fuel : nat.
Variable rs : list record.
Variable res : list (name * name).
Variable ls : list plexer.
Variable SA : forall pl, In pl ls -> sane content pl.
Hypothesis MF : madeFrom content same wrap prefers compiles compilesAll orders c description fuel rs res ls SA.
Hypothesis GF : goodFor content prefers c rs res.
Notation tokens := (tokensNow rs res).
Notation ofLexer := (ofLexer prefers tokens).
Notation fm := (fullMatch prefers).
(** The definitions of the description are LL(1) ones. *)
Record ll1Text : Prop := mkLl1Text {
  lt_once : forall d, In d (defsOf rs) -> skipsOnce d = true;
  lt_ll1 : ll1 (map Some (defsOf rs)) (mayClash c ofLexer)
}.
Lemma text_simple d : (forall d, In d (defsOf rs) -> skipsOnce d = true) -> In d (defsOf rs) -> simple d.
Proof. intros SO D. pose proof (wf_defs _ (gf_formed _ _ _ _ _ GF) d D) as (A & B & _). split; [apply (gf_endless _ _ _ _ _ GF d D)|]. split; [exact A|]. split; [exact B|apply SO, D]. Qed.
Theorem text_predicts_partial : ll1Text -> predictive c ofLexer.
Proof.
  intros [SO LL]. destruct (described content same wrap prefers compiles compilesAll orders c description fuel rs res ls SA MF) as (input & D).
  destruct (understood c compiles fm orders anyOrders fuel input TEnd rs D) as (res' & V & GT & RW & CD & ALL & LD & AB & firsts & FX & C1).
  rewrite <- (valid_unique compiles rs res res' (mf_valid _ _ _ _ _ _ _ _ _ _ _ _ _ _ MF) V) in *.
  pose proof (anyOrders (length (nodeNames rs))) as AO. destruct (orders (length (nodeNames rs))) as ((o1, o2), o3). destruct AO as (P1 & P2 & P3). rewrite <- LD in P1, P2, P3.
  eapply (definitions_predict_partial c fm tokens _ _ (defsOf rs) o1 o2 o3 ofLexer RW P1 P2 P3); [exact CD| |exact LL]. intros d I0. apply text_simple; assumption.
Qed.
Theorem text_check_ok n : (forall d, In d (defsOf rs) -> skipsOnce d = true) -> ll1B (map Some (defsOf rs)) (Prop_LangPredict.conflictOf fm tokens) n = true -> ll1Text.
Proof.
  intros SO H. destruct (described content same wrap prefers compiles compilesAll orders c description fuel rs res ls SA MF) as (input & D).
  pose proof (lexers_for content same wrap prefers PO PC compiles compilesAll orders c description fuel rs res ls SA MF GF) as LF.
  destruct (understood c compiles fm orders anyOrders fuel input TEnd rs D) as (res' & V & GT & RW & CD & ALL & LD & AB & firsts & FX & C1).
  rewrite <- (valid_unique compiles rs res res' (mf_valid _ _ _ _ _ _ _ _ _ _ _ _ _ _ MF) V) in *. pose proof (lexers_of c compiles fm rs ofLexer LF res (mf_valid _ _ _ _ _ _ _ _ _ _ _ _ _ _ MF) GT) as LX.
  pose proof (anyOrders (length (nodeNames rs))) as AO. destruct (orders (length (nodeNames rs))) as ((o1, o2), o3). destruct AO as (P1 & P2 & P3). rewrite <- LD in P1, P2, P3.
  split; [exact SO|]. eapply (ll1_check_ok c fm tokens _ _ (defsOf rs) o1 o2 o3 ofLexer RW P1 P2 P3); [exact LX|exact CD| |exact H]. intros d I0. apply (gf_endless _ _ _ _ _ GF d I0).
Qed.
(** C64 for LL(1) descriptions: ParseString accepts a text if and only if it is split into tokens by the regular expressions of the description, and
    they, without side ones, are those of a tree by its rules. *)
Theorem ll1_string_accepted_partial root tl s src w t0 : nodesDefined rs = root :: tl -> ll1Text -> calmHooks c -> cFullSource c = true ->
  stringQueue content s = Some (queueOf content src) ->
  (exists n, forall pfuel, (n <= pfuel)%nat -> exists r s, parseFrom c pfuel (src, w) t0 = Done r s) <->
  (exists l (T : tree (token S) Inst R), splitInto prefers tokens 0 (content s) l /\
     treeOf (@tokType S) (@tokContent S) (cUpper c) rs root T /\ (forall t, In t (ParserSpec.leaves T) -> ofLexer t) /\
     filter (counts rs) (ParserSpec.leaves T) = filter (counts rs) (tokensAt tokens s 0 l)).
Proof.
  intros RT LT CH FS SQ. exact (string_accepted_partial content same sameOk wrap prefers PO PC compiles compilesAll orders anyOrders c description fuel rs res ls SA MF GF root tl s src w t0 RT (text_predicts_partial LT) CH FS SQ).
Qed.
(** C65 for LL(1) descriptions: syntax errors are right. *)
Theorem ll1_string_error_partial root tl s src w t0 pfuel l e p : nodesDefined rs = root :: tl -> ll1Text -> finishable c ofLexer -> calmHooks c ->
  stringQueue content s = Some (queueOf content src) -> splitInto prefers tokens 0 (content s) l -> parseFrom c pfuel (src, w) t0 = Fail e p ->
  rightErrorOf (E := Err) (Inst := Inst) (R := R) (treeOf (@tokType S) (@tokContent S) (cUpper c) rs root) ofLexer (counts rs) termName (termFits (@tokType S) (@tokContent S) (cUpper c) rs) eoiToken
    (filter (counts rs) (tokensAt tokens s 0 l)) e.
Proof.
  intros RT LT FI CH SQ SI PF. exact (string_error_partial content same sameOk wrap prefers PO PC compiles compilesAll orders anyOrders c description fuel rs res ls SA MF GF root tl s src w t0 pfuel l e p RT (text_predicts_partial LT) FI CH SQ SI PF).
Qed.
End M.

(** ** Non-vacuity *)
(** The description of Prop_LangPredict.v, from its definitions; what it is checked for there are its tables *)
Module Example1.
  Import Prop_LangPredict.Example1.
  Example ll1_ok : ll1 (map Some cs) (mayClash conf lexed).
  Proof.
    apply (ll1_check_ok conf fullMatch tokens [] names cs [0; 1] [1; 0] [0; 1] lexed read_well) with (cfuel := 20%nat) (n := 10%nat); try exact is_compiled; try exact lexers_ok; try (vm_compute; reflexivity).
    - apply perm_swap.
    - intros d [<-|[<-|[]]]; reflexivity.
  Qed.
  Example simple_ok : forall d, In d cs -> simple d.
  Proof. intros d [<-|[<-|[]]]; repeat split; reflexivity. Qed.
  Example predicts : predictive conf lexed.
  Proof. apply (definitions_predict_partial conf fullMatch tokens [] names cs [0; 1] [1; 0] [0; 1] lexed read_well) with (cfuel := 20%nat); try exact is_compiled; try exact simple_ok; try exact ll1_ok; try reflexivity. apply perm_swap. Qed.
End Example1.
(** The description of Prop_TextParser.v, from its text *)
Module Example2.
  Import Prop_TextParser.Example1.
  Example text_ok : ll1Text content prefers conf rs res.
  Proof.
    apply (text_check_ok content nameEqb (fun e => e) prefers (trees_ok treeFor) cut (fun _ => true) (fun _ => true) orders Prop_LangText.Example1.any conf description 100 rs res ls SA made_ok good_ok 10).
    - rewrite defs_eq. intros d [<-|[<-|[]]]; reflexivity.
    - vm_compute. reflexivity.
  Qed.
  Example exactly s src : stringQueue content s = Some (queueOf content src) ->
    (exists n, forall fuel, (n <= fuel)%nat -> exists r p, parseFrom conf fuel (src, 0) eoiToken = Done r p) <-> meant s.
  Proof.
    apply (ll1_string_accepted_partial content nameEqb LangTextTotal.nameEqb_ok (fun e => e) prefers (trees_ok treeFor) cut (fun _ => true) (fun _ => true) orders Prop_LangText.Example1.any conf description 100 rs res ls SA made_ok good_ok (b "root") [b "item"]).
    - vm_compute. reflexivity.
    - exact text_ok.
    - exact calm_ok.
    - reflexivity.
  Qed.
  (** syntax errors: the example of Prop_TextExpect.v *)
  Example errors := fun s src l e p n => ll1_string_error_partial content nameEqb LangTextTotal.nameEqb_ok (fun e => e) prefers (trees_ok treeFor) cut (fun _ => true) (fun _ => true) orders Prop_LangText.Example1.any conf description 100 rs res ls SA made_ok good_ok
    (b "root") [b "item"] s src 0 eoiToken n l e p eq_refl text_ok Prop_TextExpect.Example1.finish_ok calm_ok.
End Example2.
(** Definitions of expressions: sum = product, {'+' | '-', product}; product = value, {'*', value}; value = $num | $name, ['(', [sum, {',', sum}], ')'] | '(', sum, ')' | '-', value *)
Module Example3.
  Definition G (l : list chunk) := CGroup false false l.
  Definition defs : list (option chunk) := map Some
    [G [CNode 1; CGroup true true [CVar [CTok 2; CTok 3]; CNode 1]];
     G [CNode 2; CGroup true true [CTok 4; CNode 2]];
     G [CVar [CTok 0; G [CTok 1; CGroup true false [CTok 5; CGroup true false [CNode 0; CGroup true true [CTok 7; CNode 0]]; CTok 6]]; G [CTok 5; CNode 0; CTok 6]; G [CTok 3; CNode 2]]]].
  Example ll1_ok : ll1 defs (fun k k' => (k =? k') = true).
  Proof.
    apply (ll1_checked defs Z.eqb 20); [|vm_compute; reflexivity]. intros i d D. unfold LangNodesSpec.defined in D. apply LangDrop.zget_In in D. destruct D as [D|[D|[D|[]]]]; injection D as <-; apply Prop_LangNodes.writtenb_ok; vm_compute; reflexivity.
  Qed.
  Example once_ok : forallb (fun d => match d with Some c => endless c && loopsApart c && skipsApart c false && skipsOnce c | None => false end) defs = true.
  Proof. reflexivity. Qed.
  (** not LL(1): call = $name | ($name, '(', ')') *)
  Example not_ll1 : ~ ll1 [Some (CVar [G [CTok 1]; G [CTok 1; CTok 5]])] (fun k k' => (k =? k') = true).
  Proof.
    intros H. assert (D : decided [Some (CVar [G [CTok 1]; G [CTok 1; CTok 5]])] (fun k k' => (k =? k') = true) (follows [Some (CVar [G [CTok 1]; G [CTok 1; CTok 5]])] 0) (CVar [G [CTok 1]; G [CTok 1; CTok 5]])) by (apply H; reflexivity).
    inversion D as [| | |A l _ P _ EA EL|]; subst. inversion P as [|x l F _ EL]; subst. inversion F as [|y l' AP _ EL]; subst.
    apply (AP 1 1); [exists (STok 1), []|exists (STok 1), [STok 5]|reflexivity]; (split; [|reflexivity]); apply D_once.
    - apply (DS_cons _ (CTok 1) [] [STok 1] []); constructor.
    - apply (DS_cons _ (CTok 1) [CTok 5] [STok 1] [STok 5]); [constructor|]. apply (DS_cons _ (CTok 5) [] [STok 5] []); constructor.
  Qed.
End Example3.
(** Without [skipsOnce]: for root = ([$a]), $b the first state has both a rule to skip "$a" and the rule for "$b" of the next state.  (Either leads to the same trees.) *)
Module Example4.
  Definition fullMatch (re text : name) : bool := nameEqb re text.
  Definition tokens : list gtoken := [mkTok [97] [97] 0 0; mkTok [98] [98] 0 0].
  Definition cs : list chunk := [CGroup false false [CGroup false false [CGroup true false [CTok 0]]; CTok 1]].
  Definition g : grammar := Eval vm_compute in match compileDescription fullMatch (fun x => x) 20 [0] [0] [0] tokens [] [[10]] (map Some cs) with Compiled g => g | _ => mkGrammar [] [] [] [] [] [] end.
  Definition conf := demo g [] true true.
  Definition lexed (t : dTok) : Prop := fst t = 0 \/ fst t = 1.
  Lemma matches t k : lexed t -> 0 <= k -> tokenMatches (cType conf) (cText conf) (cUpper conf) (cGrammar conf) t k -> k = fst t.
  Proof.
    intros L K (keys & KO & I0). assert (NL : forall i, ~ literalFor (cType conf) (cText conf) (cUpper conf) (cGrammar conf) t i).
    { intros i [e _ _ ((lt & GL & LF & LN) & _)]. apply LangDrop.zget_In in GL. destruct GL as [<-|[<-|[]]]; discriminate LF. }
    inversion KO as [|t' N|t' i LI NR|t' i LI RS]; subst; [|destruct (NL _ LI)..]. destruct I0 as [I0|[I0|[]]]; [symmetry; exact I0|]. unfold AnyToken in I0. lia.
  Qed.
  Lemma rule_at j st r : zget (gStates g) j = Some st -> In r (match zslice (gRules g) (sLow st) (sHigh st) with Some l => l | None => [] end) -> sLowMulti st = 0 -> sHighMulti st = 0 -> ruleOf g j r.
  Proof. intros S I0 L H. destruct (zslice (gRules g) (sLow st) (sHigh st)) as [l|] eqn:Z; [|destruct I0]. exists st, l, [], [r]. rewrite L, H. repeat split; auto; [constructor; auto|left; reflexivity]. Qed.
End Example4.
Theorem ll1_tables_refuted : exists (c : config dTok (list dTok) Z Z Z Z) fullMatch tokens names cs lexed fuel,
  readWell tokens names (map Some cs) /\ compileDescription fullMatch (cUpper c) fuel [0] [0] [0] tokens [] names (map Some cs) = Compiled (cGrammar c) /\
  (forall d, In d cs -> endless d = true /\ loopsApart d = true /\ skipsApart d false = true) /\ ll1 (map Some cs) (mayClash c lexed) /\ ~ predictive c lexed.
Proof.
  exists Example4.conf, Example4.fullMatch, Example4.tokens, [[10]], Example4.cs, Example4.lexed, 20%nat. split; [apply Prop_LangCompile.readWellb_ok; vm_compute; reflexivity|]. split; [vm_compute; reflexivity|].
  split; [intros d [<-|[]]; repeat split; reflexivity|]. split.
  - apply (ll1_mono _ (fun k k' => (k =? k') = true)).
    + intros k k' [->|(K & K' & t & L & A & B)]; apply Z.eqb_eq; [reflexivity|]. rewrite (Example4.matches t k L K A), (Example4.matches t k' L K' B). reflexivity.
    + apply (ll1_checked _ Z.eqb 10); [|vm_compute; reflexivity]. intros i d D. unfold LangNodesSpec.defined in D. apply LangDrop.zget_In in D. destruct D as [D|[]]. injection D as <-. apply Prop_LangNodes.writtenb_ok. reflexivity.
  - intros P. assert (TM : tokenMatches (cType Example4.conf) (cText Example4.conf) (cUpper Example4.conf) (cGrammar Example4.conf) (1, 0) 1).
    { exists [cType Example4.conf (1, 0); AnyToken]. split; [|left; reflexivity]. apply K_type. intros i [e _ _ ((lt & GL & LF & LN) & _)]. apply LangDrop.zget_In in GL. destruct GL as [<-|[<-|[]]]; discriminate LF. }
    apply (pr_skip _ _ P 0 0 (mkRule AnyToken 1 (-1)) (mkRule 1 (-1) (-1)) (1, 0)); auto.
    + apply (ON_first _ 0 (mkNode [10] 0)). reflexivity.
    + eapply Example4.rule_at; [reflexivity|vm_compute; auto|reflexivity..].
    + eapply Example4.rule_at; [reflexivity|vm_compute; auto|reflexivity..].
    + discriminate.
    + right. reflexivity.
    + apply (CN_here _ 0 1 (mkRule 1 (-1) (-1)) (1, 0)); [|discriminate|exact TM]. eapply Example4.rule_at; [reflexivity|vm_compute; auto|reflexivity..].
Qed.
Print Assumptions ll1_tables_refuted.
Print Assumptions definitions_predict_partial.
Print Assumptions ll1_check_ok.
Print Assumptions ll1_accepts_exactly_partial.
Print Assumptions text_predicts_partial.
Print Assumptions text_check_ok.
Print Assumptions ll1_string_accepted_partial.
Print Assumptions ll1_string_error_partial.
