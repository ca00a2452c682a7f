(** C72: a parse reads texts piece by piece, whatever the groups of types are. *)
From Coq Require Import String ZArith List Bool Lia Permutation.
From Verif Require LangFirst LangTypesProofs Prop_LangGrammar Prop_LangCompile LangNodes.
From Verif Require Import Base BaseProofs Utf8 Grammar RulesSpec Parser ParserSpec ParserProofs ParserFlowSpec ParserEnd SourceQueue SourceQueueSpec Prop_SourceQueue Lexer LexerSpec LexerProofs ParserNew ParserNewSpec ParserNewProofs
  LangDescSpec LangDescFacts LangText LangTextSpec DescTreeSpec DescTokens DescTree DescLexer DescLexerSpec DescLexerProofs Prop_LangDesc Prop_DescLexer Prop_DescTree
  TextParser TextParserSpec TextParserProofs Prop_TextParser ParserReadsSpec ParserReads TextReadsSpec.
Import ListNotations.
Open Scope Z_scope.

Section R.
Context {S : Type} (content : S -> list Z).
Variable prefers : name -> list Z -> option Z.
Hypothesis PO : regexpsOk prefers.
Variable ts : list gtoken.
Notation readsTo := (readsTo content prefers ts).
Lemma typeRange k text i d n : firstType prefers ts k text i d n -> 0 <= i < zlen ts /\ 0 <= n <= zlen text.
Proof. intros F. split; [exact (zget_Some_inv _ _ _ (proj1 (ft_type _ _ _ _ _ _ _ F)))|exact (PO _ _ _ (ft_match _ _ _ _ _ _ _ F))]. Qed.
(** one call of a lexer of any group *)
Lemma call_reads k q l tts t after : LexerProofs.qok content q l -> called content prefers ts k tts (seen q) (Some t, None) after ->
  (tokType t <> EoiTokenType /\ l <> [] /\ forall l' u, readsTo (afterRes l (Some t, None)) l' u -> readsTo l (t :: l') u) \/ (t = eoiToken /\ l = [] ).
Proof.
  intros (A & O & _) CL. destruct l as [|(s0, p0) r]; cbn [absq] in A; destruct A as (A1 & A2 & _); unfold seen in CL; rewrite A1, A2 in CL;
  inversion CL as [?|W0|s1 a1 W0|s1 p1 i d n HR FT Hn I64 B|s1 p1 i d n W0 HR FT Hn I64 B|s1 p1 i d n W0 HR FT Hn I64|s1 p1 W0 HR X]; subst.
  - right. auto.
  - left. split; [discriminate|]. split; [discriminate|]. intros l' u. cbn [afterRes tokType eofToken newToken]. rewrite Z.eqb_refl. apply RT_eof.
  - left. destruct (typeRange _ _ _ _ _ FT) as (RI & RN). cbn [tokType]. split; [unfold EoiTokenType; lia|]. split; [discriminate|]. intros l' u. cbn [afterRes tokType tokContent].
    destruct (Z.eqb_spec i Lexer.EofTokenType) as [X|_]; [unfold Lexer.EofTokenType in X; lia|]. replace (zlen (firstn (Z.to_nat n) (rest content s0 (spos q)))) with n by (unfold zlen in *; rewrite firstn_length; lia). eapply RT_token; eauto.
Qed.
End R.

Section C.
Context {S : Type} (content : S -> list Z) (same : S -> S -> bool).
Hypothesis sameOk : forall a b, same a b = true <-> a = b.
Context {Err : Type} (wrap : lexError S -> Err).
Variable prefers : name -> list Z -> option Z.
Hypothesis PO : regexpsOk prefers.
Context {W Inst R : Type} (c : Parser.config (token S) (queueState content) W Err Inst R).
Notation g := (Parser.cGrammar c).
Notation ts := (gTokens g).
Notation items := (itemsOf content).
Notation readsTo := (readsTo content prefers ts).
(** calls of lexers one after another *)
Lemma loop_reads : forall ls SA k0 types src first, (forall k l, zget ls k = Some l -> l = groupLexer prefers ts (k0 + k)) ->
  match Parser.fetchLoop (lexersOf content wrap ls SA) types src first with
  | (src', (Some t, None)) => exists k, called content prefers ts k (u64 types) (seen (queueOf content src)) (Some t, None) (seen (queueOf content src')) /\ items src' = afterRes (items src) (Some t, None)
  | (src', (None, _)) => items src' = items src
  | _ => False
  end.
Proof.
  induction ls as [|pl ls IH]; intros SA k0 types src first H; cbn [lexersOf Parser.fetchLoop]; [reflexivity|].
  assert (pl = groupLexer prefers ts (k0 + 0)) as -> by (apply H; reflexivity).
  destruct (lexer_call prefers PO ts (k0 + 0) content (queueOf content src) (items src) (u64 types) (proj2_sig src) (u64_nonneg types)) as (q' & res & E & CL & _).
  destruct (lexCall_is content wrap (groupLexer prefers ts (k0 + 0)) (SA _ (or_introl eq_refl)) src types q' res E) as (src' & -> & EQ & EI).
  assert (H' : forall k l, zget ls k = Some l -> l = groupLexer prefers ts ((k0 + 1) + k)).
  { intros k l G. pose proof (zget_Some_inv _ _ _ G) as RK. replace (k0 + 1 + k) with (k0 + (k + 1)) by lia. apply H. rewrite LangTypesProofs.zget_cons. destruct (Z.eqb_spec (k + 1) 0); [lia|]. rewrite Z.add_simpl_r. exact G. }
  assert (GO : items src' = items src -> match Parser.fetchLoop (lexersOf content wrap ls (fun p I => SA p (or_intror I))) types src' (match first with Some _ => first | None => option_map wrap (snd res) end) with
    | (src', (Some t, None)) => exists k, called content prefers ts k (u64 types) (seen (queueOf content src)) (Some t, None) (seen (queueOf content src')) /\ items src' = afterRes (items src) (Some t, None)
    | (src', (None, _)) => items src' = items src | _ => False end).
  { intros EI'. specialize (IH (fun p I => SA p (or_intror I)) (k0 + 1) types src' (match first with Some _ => first | None => option_map wrap (snd res) end) H').
    assert (SE : seen (queueOf content src') = seen (queueOf content src)).
    { destruct (proj2_sig src) as (A & _). destruct (proj2_sig src') as (A' & _). change (fst (proj1_sig src)) with (queueOf content src) in A. change (snd (proj1_sig src)) with (items src) in A.
      change (fst (proj1_sig src')) with (queueOf content src') in A'. change (snd (proj1_sig src')) with (items src') in A'. rewrite EI' in A'. unfold seen. destruct (items src) as [|(s0, p0) r]; cbn [absq] in A, A'; destruct A as (-> & -> & _), A' as (-> & -> & _); reflexivity. }
    destruct (Parser.fetchLoop _ types src' _) as (src2 & ([t|] & [e|])); auto; rewrite ?SE, ?EI' in IH; exact IH. }
  destruct res as ([t|], [e|]); cbn [fst snd option_map] in *.
  - inversion CL.
  - exists (k0 + 0). rewrite EQ. auto.
  - apply GO. rewrite EI. apply after_none.
  - apply GO. rewrite EI. apply after_none.
Qed.
Variable compilesAll : list name -> bool.
Variable ls : list plexer.
Variable SA : forall pl, In pl ls -> sane content pl.
Hypothesis OT : overText content same wrap c ls SA.
Hypothesis NP : newParser prefers compilesAll g = NewLexers ls.
Lemma reads_ok target : readsOf c (fun src l => readsTo (items src) l target) (fun src => items src = []) eoiToken.
Proof.
  assert (LP : forall types src, match Parser.fetchToken c types src with
    | (src', (Some t, None)) => exists k, called content prefers ts k (u64 types) (seen (queueOf content src)) (Some t, None) (seen (queueOf content src')) /\ items src' = afterRes (items src) (Some t, None)
    | (src', (None, _)) => items src' = items src | _ => False end).
  { intros types src. unfold Parser.fetchToken. rewrite (ot_lexers _ _ _ _ _ _ OT). apply (loop_reads ls SA 0). intros k l G. exact (proj2 (newParser_lexers _ _ _ _ NP) k l G). }
  constructor.
  - rewrite (ot_type _ _ _ _ _ _ OT). reflexivity.
  - intros types src src' t H. specialize (LP types src). rewrite H in LP. destruct LP as (k & CL & EI). rewrite (ot_type _ _ _ _ _ _ OT).
    destruct (call_reads content prefers PO ts k _ _ _ _ _ (proj2_sig src) CL) as [(A & B & X)|(-> & B)]; [left; split; [exact A|]; split; [exact B|]; intros l; rewrite EI; apply X|right].
    change (snd (proj1_sig src)) with (items src) in B. rewrite EI, B. repeat split. auto.
  - intros types src src' H. specialize (LP types src). rewrite H in LP. rewrite LP. auto.
  - intros types src src' t H NI NF l. specialize (LP types src). rewrite H in LP. destruct LP as (k & CL & EI). rewrite (ot_type _ _ _ _ _ _ OT) in NI, NF.
    rewrite (ot_unread _ _ _ _ _ _ OT). enough (EQ : items (unreadToken content same t src') = items src) by (rewrite EQ; auto).
    destruct (proj2_sig src) as (A & O & _). change (fst (proj1_sig src)) with (queueOf content src) in A. change (snd (proj1_sig src)) with (items src) in A, O.
    destruct (items src) as [|(s0, p0) r] eqn:IT; cbn [absq] in A; destruct A as (A1 & A2 & _); unfold seen at 1 in CL; rewrite A1, A2 in CL;
    inversion CL as [?|W0|s1 a1 W0|s1 p1 i d n HR FT Hn I64 B|s1 p1 i d n W0 HR FT Hn I64 B|s1 p1 i d n W0 HR FT Hn I64|s1 p1 W0 HR X]; subst; try (exfalso; apply NI; reflexivity); try (exfalso; apply NF; reflexivity).
    destruct (typeRange prefers PO ts _ _ _ _ _ FT) as (RI & RN). cbn [afterRes tokType tokContent] in EI. destruct (Z.eqb_spec i Lexer.EofTokenType) as [X|_]; [unfold Lexer.EofTokenType in X; lia|].
    unfold unreadToken. cbn [tokSource tokPos]. cbn beta.
    assert (SC : scur (queueOf content src') = Some s0).
    { destruct (proj2_sig src') as (A & _). change (fst (proj1_sig src')) with (queueOf content src') in A. change (snd (proj1_sig src')) with (items src') in A. rewrite EI in A. apply A. }
    rewrite SC, (proj2 (sameOk s0 s0) eq_refl). unfold seek, itemsOf at 1. cbn [proj1_sig snd]. rewrite EI. cbn [a_move]. unfold slen. replace (Z.max 0 (Z.min (zlen (content s0)) (spos (queueOf content src)))) with (spos (queueOf content src)) by lia. reflexivity.
Qed.
End C.

(** what is read: types with regular expressions, and ends of files *)
Lemma read_types {S} (content : S -> list Z) prefers ts q l q' : TextReadsSpec.readsTo content prefers ts q l q' ->
  forall t, In t l -> tokType t = EofTokenType \/ exists d, zget ts (tokType t) = Some d /\ gtRe d <> [].
Proof.
  induction 1 as [q|s p r k i d n l q P F N I64 _ IH|s r l q _ IH]; [intros t []| |]; intros t [<-|I0]; auto.
  right. destruct (ft_type _ _ _ _ _ _ _ F) as (G & RE & _). exists d. auto.
Qed.
(** tokens put together are the text *)
Lemma read_text {S} (content : S -> list Z) prefers ts : regexpsOk prefers -> forall q l q', TextReadsSpec.readsTo content prefers ts q l q' -> q' = [] ->
  flat_map (@tokContent S) l = flat_map (fun x => rest content (fst x) (snd x)) q.
Proof.
  intros PO q l q' H. induction H as [q|s p r k i d n l q P F N I64 _ IH|s r l q _ IH]; intros E.
  - rewrite E. reflexivity.
  - cbn [flat_map tokContent fst snd]. rewrite (IH E). cbn [flat_map fst snd]. rewrite app_assoc. f_equal. rewrite <- rest_move by lia. apply firstn_skipn.
  - cbn [flat_map tokContent eofToken newToken fst snd app]. rewrite (IH E). unfold rest at 2. rewrite skipn_all2 by (unfold zlen; rewrite Nat2Z.id; lia). reflexivity.
Qed.

Section M.
Context {S : Type} (content : S -> list Z) (same : S -> S -> bool).
Hypothesis sameOk : forall a b, same a b = true <-> a = b.
Context {W Err Inst R : Type} (wrap : lexError S -> Err).
Variable prefers : name -> list Z -> option Z.
Hypothesis PO : regexpsOk prefers.
Variable compiles : name -> bool.
Variable compilesAll : list name -> bool.
Variable orders : nat -> list Z * list Z * list Z.
Hypothesis anyOrders : forall n, let '(o1, o2, o3) := orders n in Permutation o1 (LangNodes.indexes n) /\ Permutation o2 (LangNodes.indexes n) /\ Permutation o3 (LangNodes.indexes n).
Variable c : config (token S) (queueState content) W Err Inst R.
Notation g := (cGrammar c).
Variable description : list Z.
Variable fuel : nat.
Variable rs : list record.
Variable res : list (name * name).
Variable ls : list plexer.
Variable SA : forall pl, In pl ls -> sane content pl.
(** the parser is made from the text of a description that is the records [rs]; groups of types may be any *)
Hypothesis MF : madeFrom content same wrap prefers compiles compilesAll orders c description fuel rs res ls SA.
Notation tokens := (tokensNow rs res).
Notation readsTo := (TextReadsSpec.readsTo content prefers tokens).
Notation treeOf := (DescTreeSpec.treeOf (Inst := Inst) (R := R) (@tokType S) (@tokContent S) (cUpper c) rs).

Lemma group_tokens : gTokens g = tokens /\ tablesOk g.
Proof.
  destruct (described content same wrap prefers compiles compilesAll orders c _ _ _ _ _ _ MF) as (input & D). destruct (understood c compiles (fullMatch prefers) orders anyOrders fuel input TEnd rs D) as (res' & V' & GT & RW & CD & ALL & LD & AB & _).
  rewrite <- (valid_unique compiles rs res res' (mf_valid _ _ _ _ _ _ _ _ _ _ _ _ _ _ MF) V') in *. split; [exact GT|]. pose proof (anyOrders (length (nodeNames rs))) as AO. destruct (orders (length (nodeNames rs))) as ((o1, o2), o3). destruct AO as (P1 & P2 & P3). rewrite <- LD in P1, P2, P3.
  destruct (Prop_LangCompile.compile_any (fullMatch prefers) (cUpper c) _ _ _ _ o1 o2 o3 RW P1 P2 P3 _ _ CD) as (_ & _ & _ & (cs & firsts & _ & _ & _ & _ & TS) & _). apply Prop_LangGrammar.sound_tablesOk, TS.
Qed.
Lemma side_is (CT : cType c = @tokType S) t : sideToken c t = sideIn rs t.
Proof.
  destruct group_tokens as (GT & _). pose proof (names_of content same wrap prefers compiles compilesAll orders c _ _ _ _ _ _ MF) as NM. unfold sideToken, sideIn. rewrite CT. destruct (zget (gTokens g) (tokType t)) as [d|] eqn:G.
  - pose proof (zget_Some_inv _ _ _ G) as RG. destruct (Z.lt_ge_cases (tokType t) (zlen (typeNames rs))) as [L|L].
    + destruct (get_type g rs res GT NM _ _ G L) as (n & TN & _ & FL). rewrite TN, FL. apply flags_side.
    + rewrite (DescTokens.tokens_split g rs res GT), LangTypesProofs.zget_app_r in G by (rewrite types_K; [lia|exact NM]). rewrite Verif.LangFirst.zget_map in G. destruct (zget (literals rs) _) as [x|]; [|discriminate]. injection G as <-.
      destruct (zget (typeNames rs) (tokType t)) as [n|] eqn:TN; [apply zget_Some_inv in TN; lia|]. cbn [literalTokenNow gtFlags]. destruct (reservedNow x rs); reflexivity.
  - destruct (zget (typeNames rs) (tokType t)) as [n|] eqn:TN; [|reflexivity]. destruct (type_get g rs res GT NM _ _ TN) as (d & X & _). congruence.
Qed.
(** *** C72 *)
(** Sources are read from their places on as tokens, each of which is found by the first type of its group that matches where the one before it ends;
    the tokens shown are those of a tree by the description; a full-source parse leaves nothing unread, and other parses leave the queue
    right after the tree. *)
Theorem groups_read_partial root tl pfuel src w t0 r s : nodesDefined rs = root :: tl -> wellFormed rs -> quietHooks c -> cTokenHooks c = [] -> gMultiRules g = [] ->
  parseFrom c pfuel (src, w) t0 = Done r s ->
  exists toks (T : tree (token S) Inst R) trailing,
    readsTo (itemsOf content src) toks (itemsOf content (fst (pWorld s))) /\ treeOf root T /\
    filter (shown rs (cPassSides c)) toks = filter (fun t => negb (tokType t =? EoiTokenType)) (ParserSpec.leaves T) ++ trailing /\
    (forall t, In t trailing -> sideIn rs t = true) /\
    (if cFullSource c then itemsOf content (fst (pWorld s)) = [] else trailing = []).
Proof.
  intros RT WF HQ N0 M0 HP. pose proof (mf_over _ _ _ _ _ _ _ _ _ _ _ _ _ _ MF) as OT. pose proof (mf_lexers _ _ _ _ _ _ _ _ _ _ _ _ _ _ MF) as NP. destruct group_tokens as (GT & TO).
  assert (CT : cType c = @tokType S) by apply (ot_type _ _ _ _ _ _ OT). assert (CX : cText c = @tokContent S) by apply (ot_text _ _ _ _ _ _ OT).
  destruct (reads_all c _ _ eoiToken (reads_ok content same sameOk wrap prefers PO c compilesAll ls SA OT NP (itemsOf content (fst (pWorld s)))) HQ N0 M0 pfuel (src, w) t0 r s HP) as (T & toks & _ & (_ & D) & _ & V & ss & FE & SD & F0 & F1).
  specialize (V [] (RT_here _ _ _ _)). rewrite app_nil_r in V. cbn [fst] in V. rewrite GT in V. specialize (D TO).
  assert (VE : forall l, filter (visible c) l = filter (shown rs (cPassSides c)) l) by (intros l; apply filter_ext; intros t; unfold visible, shown; rewrite (side_is CT), CT; reflexivity).
  assert (NE : forall l, filter (notEoi c) l = filter (fun t => negb (tokType t =? EoiTokenType)) l) by (intros l; apply filter_ext; intros t; unfold notEoi; rewrite CT; reflexivity).
  rewrite VE, NE in FE. exists toks, T, ss. split; [exact V|]. split; [|split; [exact FE|split]].
  - destruct (described content same wrap prefers compiles compilesAll orders c _ _ _ _ _ _ MF) as (input & DB). rewrite <- CT, <- CX.
    apply (description_trees_partial c compiles (fullMatch prefers) orders anyOrders fuel input TEnd rs DB WF); [|rewrite (root_first _ _ _ RT); exact D].
    intros t IT. unfold plainToken. rewrite CT. pose proof (zlen_nonneg (typeNames rs)) as ZN. destruct (Z.eq_dec (tokType t) EoiTokenType) as [X|X]; [rewrite X; unfold EoiTokenType; lia|].
    assert (IN : In t (filter (shown rs (cPassSides c)) toks)) by (rewrite FE; apply in_or_app; left; apply filter_In; split; [exact IT|apply negb_true_iff, Z.eqb_neq, X]). apply filter_In in IN as (IN & _).
    destruct (read_types _ _ _ _ _ _ V t IN) as [Y|(d & G & RE)]; [rewrite Y; unfold EofTokenType; lia|]. destruct (token_re rs res _ d (names_of content same wrap prefers compiles compilesAll orders c _ _ _ _ _ _ MF) G RE) as (n & TN & _). apply zget_Some_inv in TN. lia.
  - intros t IT. rewrite <- (side_is CT). rewrite Forall_forall in SD. rewrite sideToken_ok. apply SD, IT.
  - destruct (cFullSource c); auto.
Qed.
(** ParseString: the whole text is split into the tokens. *)
Theorem string_read_partial root tl pfuel x src w t0 r s : nodesDefined rs = root :: tl -> wellFormed rs -> quietHooks c -> cTokenHooks c = [] -> gMultiRules g = [] -> cFullSource c = true ->
  stringQueue content x = Some (queueOf content src) -> parseFrom c pfuel (src, w) t0 = Done r s ->
  exists toks (T : tree (token S) Inst R) trailing,
    readsTo [(x, 0)] toks [] /\ flat_map (@tokContent S) toks = content x /\ treeOf root T /\
    filter (shown rs (cPassSides c)) toks = filter (fun t => negb (tokType t =? EoiTokenType)) (ParserSpec.leaves T) ++ trailing /\
    (forall t, In t trailing -> sideIn rs t = true).
Proof.
  intros RT WF HQ N0 M0 FS SQ HP. destruct (groups_read_partial root tl pfuel src w t0 r s RT WF HQ N0 M0 HP) as (toks & T & ss & V & TT & FE & SD & F1). rewrite FS in F1. rewrite F1 in V.
  destruct (string_queue content x) as (q & E & Q). rewrite SQ in E. injection E as <-.
  assert (IS : itemsOf content src = [(x, 0)]) by (apply (items_unique (queueOf content src)); [exact (proj1 (proj2_sig src))|exact (proj1 Q)]). rewrite IS in V.
  exists toks, T, ss. split; [exact V|]. split; [rewrite (read_text content prefers tokens PO _ _ _ V eq_refl); cbn [flat_map fst snd]; rewrite app_nil_r; reflexivity|]. auto.
Qed.
End M.

From Verif Require Import Base BaseProofs Utf8 Regexp Grammar SourceQueue SourceQueueSpec Prop_SourceQueue Lexer LexerSpec LexerProofs ParserNew ParserNewSpec ParserNewProofs Prop_ParserNew ParserRegexp ParserRegexpProofs TextParser.
From Verif Require Import LangBuild LangSpec Parser ParserSpec ParserSafeSpec ParserFlowSpec Prop_Parser LangNodesSpec LangFirst LangDrop LangCompile LangTypes Prop_LangGrammar Prop_LangCompile LangNodes LangText LangTextSpec Prop_LangText LangDescSpec LangDescFacts LangDescUnique Prop_LangDesc DescTreeSpec DescTree DescTokens Prop_DescTree DescLexer DescLexerSpec DescLexerProofs Prop_DescLexer TextParserSpec TextParserProofs Prop_TextParser TextReadsSpec.

(** !side $space; !group $value; $space = /[ ]+/; $name = /[a-z]+/; $op = /[=]/; $value = /[a-z=]+/; root = $name, '=', $value;
    values are a group of their own: they have signs that are tokens of the other group *)
Module Example1.
  Definition b := bytes.
  Definition description : list Z := Eval vm_compute in b "!side $space; !group $value; $space = /[ ]+/; $name = /[a-z]+/; $op = /[=]/; $value = /[a-z=]+/; root = $name, '=', $value;".
  Definition spaces : name := Eval vm_compute in b "[ ]+".
  Definition letters : name := Eval vm_compute in b "[a-z]+".
  Definition sign : name := Eval vm_compute in b "[=]".
  Definition values : name := Eval vm_compute in b "[a-z=]+".
  (** these regular expressions as trees (Regexp.v) *)
  Definition treeFor (re : name) : rx :=
    if nameEqb re spaces then RPlus (RRune 32) else if nameEqb re letters then RPlus (RClass (fun x => (97 <=? x) && (x <=? 122))) else if nameEqb re sign then RRune 61
    else RPlus (RClass (fun x => (x =? 61) || (97 <=? x) && (x <=? 122))).
  Definition prefers (re : name) := treePrefers (treeFor re).
  Definition rs : list record :=
    [RDirective DSide [AType (b "space")]; RDirective DGroup [AType (b "value")]; RType (b "space") [PRegexp spaces]; RType (b "name") [PRegexp letters]; RType (b "op") [PRegexp sign]; RType (b "value") [PRegexp values];
     RNode (b "root") [[VType (b "name")]; [VLiteral (b "=")]; [VType (b "value")]]].
  Definition res : list (name * name) := [(b "space", spaces); (b "name", letters); (b "op", sign); (b "value", values)].
  Definition orders := Prop_LangText.Example1.orders.
  Definition g : grammar := Eval vm_compute in match parseBytes (fun _ => true) (fullMatch prefers) (fun x => x) 100 orders description with AGrammar g => g | _ => mkGrammar [] [] [] [] [] [] end.
  Definition ls : list plexer := match newParser prefers (fun _ => true) g with NewLexers ls => ls | _ => [] end.
  Lemma made : newParser prefers (fun _ => true) g = NewLexers ls. Proof. reflexivity. Qed.
  (** there are two lexers *)
  Lemma two_lexers : length ls = 2%nat. Proof. vm_compute. reflexivity. Qed.
  Definition content (s : list Z) := s.
  Definition SA : forall pl, In pl ls -> sane content pl := lexers_sane content prefers (fun _ => true) g ls (trees_ok treeFor) made.
  Definition conf : config (token (list Z)) (queueState content) Z (lexError (list Z)) Z Z :=
    mkConfig (@tokType _) (@tokContent _) (fun x => x)
      (mkMethods (fun i n t w => (w, None)) (fun i n x w => (w, None)) (fun i t w => (w, None)) (fun i w => (w, (Some (10 + i), None))))
      g (lexersOf content (fun e => e) ls SA) (fun _ => None) [] [Some (fun node t w => (w, (Some node, None))) :: map (fun _ => None) (gNodes g)] (fun w => (w, None)) true true true (unreadToken content nameEqb).
  Example split_ok : exists input, splits taken description input [] /\ spells input rs.
  Proof. exists (wAll rs). split; [eapply split_computed; [vm_compute; reflexivity|vm_compute; reflexivity]|]. apply written_description; vm_compute; reflexivity. Qed.
  Example valid_ok : valid (fun _ => true) rs res.
  Proof.
    destruct split_ok as (input & SP & SPL). assert (E : parseBytes (fun _ => true) (fullMatch prefers) (fun x => x) 100 orders description = AGrammar g) by (vm_compute; reflexivity).
    destruct (text_accepted_partial (fun _ => true) (fullMatch prefers) (fun x => x) orders Prop_LangText.Example1.any 100 description input [] g SP) as (_ & rs' & S' & X); [apply (records_strings _ string_kind _ _ (proj1 SPL))|apply (records_plain _ string_kind _ _ (proj1 SPL))|exact E|].
    rewrite (description_unique _ _ _ (split_lexed _ _ _ SP) S' SPL) in X. destruct X as (res' & V & _); [apply distinct_ok; vm_compute; reflexivity|apply reserved_ok; vm_compute; reflexivity|].
    assert (res' = res) as <-; [|exact V]. pose proof (vd_regexps _ _ _ V) as R. vm_compute in R. injection R as <-. reflexivity.
  Qed.
  Example made_ok : madeFrom content nameEqb (fun e => e) prefers (fun _ => true) (fun _ => true) orders conf description 100 rs res ls SA.
  Proof.
    constructor.
    - exact split_ok.
    - exact valid_ok.
    - vm_compute. reflexivity.
    - exact made.
    - constructor; reflexivity.
  Qed.
  Example quiet_ok : quietHooks conf.
  Proof. constructor; try reflexivity; [|intros ? ? ? []]. intros table h n t w [<-|[]] [X|X]; [injection X as <-; reflexivity|]. apply in_map_iff in X as (x & X & _). discriminate. Qed.
  Example wf_ok : wellFormed rs.
  Proof.
    assert (DE : defsOf rs = [CGroup false false [CTok 1; CTok 4; CTok 3]]) by (vm_compute; reflexivity).
    split; rewrite DE.
    - intros d [<-|[]]; (split; [|split]; reflexivity).
    - intros d i d' _ _ G. apply zget_In in G. destruct G as [<-|[]]; reflexivity.
  Qed.
  Definition text : list Z := Eval vm_compute in b "a =b=c ".
  Lemma queue_made : exists q, stringQueue content text = Some q. Proof. eexists. reflexivity. Qed.
  Definition startAt s q (E : stringQueue content s = Some q) : queueState content := Prop_TextParser.Example1.startAt s q E.
  Definition isDone {Tok Src W E Inst R A} (x : Parser.res Tok Src W E Inst R A) : bool := match x with Done _ _ => true | _ => false end.
  (** "a =b=c " is read as "a", a space, "=", "b=c" and a space, though "b=c" is three tokens of the first group *)
  Example text_is : exists r s toks (T : tree (token (list Z)) Z Z) trailing,
    parseFrom conf 60 (startAt text _ eq_refl, 0) eoiToken = Done r s /\
    TextReadsSpec.readsTo content prefers (tokensNow rs res) [(text, 0)] toks [] /\ flat_map (@tokContent _) toks = text /\ DescTreeSpec.treeOf (@tokType _) (@tokContent _) (fun x => x) rs (b "root") T /\
    filter (shown rs true) toks = filter (fun t => negb (tokType t =? EoiTokenType)) (ParserSpec.leaves T) ++ trailing /\ (forall t, In t trailing -> sideIn rs t = true).
  Proof.
    assert (D : isDone (parseFrom conf 60 (startAt text _ eq_refl, 0) eoiToken) = true) by (vm_compute; reflexivity).
    destruct (parseFrom conf 60 (startAt text _ eq_refl, 0) eoiToken) as [r s| | |] eqn:P; try discriminate D. clear D.
    destruct (string_read_partial content nameEqb LangTextTotal.nameEqb_ok (fun e => e) prefers (trees_ok treeFor) (fun _ => true) (fun _ => true) orders Prop_LangText.Example1.any conf description 100 rs res ls SA made_ok
      (b "root") [] 60 text (startAt text _ eq_refl) 0 eoiToken r s) as (toks & T & ss & A); [vm_compute; reflexivity|exact wf_ok|exact quiet_ok|reflexivity|reflexivity|reflexivity|reflexivity|exact P|].
    exists r, s, toks, T, ss. split; [reflexivity|exact A].
  Qed.
End Example1.
Print Assumptions groups_read_partial.
Print Assumptions string_read_partial.

(** $name = /[a-z]/; root = 'a' | ('a', 'x');  the parser looks ahead to tell the variants apart *)
Module Example2.
  Definition b := bytes.
  Definition description : list Z := Eval vm_compute in b "$name = /[a-z]/; root = 'a' | ('a', 'x');".
  Definition letter : name := Eval vm_compute in b "[a-z]".
  Definition treeFor (re : name) : rx := RClass (fun x => (97 <=? x) && (x <=? 122)).
  Definition prefers (re : name) := treePrefers (treeFor re).
  Definition rs : list record := [RType (b "name") [PRegexp letter]; RNode (b "root") [[VLiteral (b "a"); VList Round [[VLiteral (b "a")]; [VLiteral (b "x")]]]]].
  Definition res : list (name * name) := [(b "name", letter)].
  Definition orders := Prop_LangText.Example1.orders.
  Definition g : grammar := Eval vm_compute in match parseBytes (fun _ => true) (fullMatch prefers) (fun x => x) 100 orders description with AGrammar g => g | _ => mkGrammar [] [] [] [] [] [] end.
  Definition ls : list plexer := match newParser prefers (fun _ => true) g with NewLexers ls => ls | _ => [] end.
  Lemma made : newParser prefers (fun _ => true) g = NewLexers ls. Proof. reflexivity. Qed.
  Definition content (s : list Z) := s.
  Definition SA : forall pl, In pl ls -> sane content pl := lexers_sane content prefers (fun _ => true) g ls (trees_ok treeFor) made.
  Definition conf : config (token (list Z)) (queueState content) Z (lexError (list Z)) Z Z :=
    mkConfig (@tokType _) (@tokContent _) (fun x => x)
      (mkMethods (fun i n t w => (w, None)) (fun i n x w => (w, None)) (fun i t w => (w, None)) (fun i w => (w, (Some (10 + i), None))))
      g (lexersOf content (fun e => e) ls SA) (fun _ => None) [] [Some (fun node t w => (w, (Some node, None))) :: map (fun _ => None) (gNodes g)] (fun w => (w, None)) true true false (unreadToken content nameEqb).
  Example split_ok : exists input, splits taken description input [] /\ spells input rs.
  Proof. exists (wAll rs). split; [eapply split_computed; [vm_compute; reflexivity|vm_compute; reflexivity]|]. apply written_description; vm_compute; reflexivity. Qed.
  Example valid_ok : valid (fun _ => true) rs res.
  Proof.
    destruct split_ok as (input & SP & SPL). assert (E : parseBytes (fun _ => true) (fullMatch prefers) (fun x => x) 100 orders description = AGrammar g) by (vm_compute; reflexivity).
    destruct (text_accepted_partial (fun _ => true) (fullMatch prefers) (fun x => x) orders Prop_LangText.Example1.any 100 description input [] g SP) as (_ & rs' & S' & X); [apply (records_strings _ string_kind _ _ (proj1 SPL))|apply (records_plain _ string_kind _ _ (proj1 SPL))|exact E|].
    rewrite (description_unique _ _ _ (split_lexed _ _ _ SP) S' SPL) in X. destruct X as (res' & V & _); [apply distinct_ok; vm_compute; reflexivity|apply reserved_ok; vm_compute; reflexivity|].
    assert (res' = res) as <-; [|exact V]. pose proof (vd_regexps _ _ _ V) as R. vm_compute in R. injection R as <-. reflexivity.
  Qed.
  Example made_ok : madeFrom content nameEqb (fun e => e) prefers (fun _ => true) (fun _ => true) orders conf description 100 rs res ls SA.
  Proof.
    constructor.
    - exact split_ok.
    - exact valid_ok.
    - vm_compute. reflexivity.
    - exact made.
    - constructor; reflexivity.
  Qed.
  Example quiet_ok : quietHooks conf.
  Proof. constructor; try reflexivity; [|intros ? ? ? []]. intros table h n t w [<-|[]] [X|X]; [injection X as <-; reflexivity|]. apply in_map_iff in X as (x & X & _). discriminate. Qed.
  Example wf_ok : wellFormed rs.
  Proof.
    assert (DE : defsOf rs = [CGroup false false [CVar [CTok 1; CGroup false false [CTok 1; CTok 2]]]]) by (vm_compute; reflexivity).
    split; rewrite DE.
    - intros d [<-|[]]; (split; [|split]; reflexivity).
    - intros d i d' _ _ G. apply zget_In in G. destruct G as [<-|[]]; reflexivity.
  Qed.
  Definition text : list Z := Eval vm_compute in b "ay".
  Definition startAt s q (E : stringQueue content s = Some q) : queueState content := Prop_TextParser.Example1.startAt s q E.
  Definition start := startAt text _ eq_refl.
  Lemma start_ok : stringQueue content text = Some (queueOf content start). Proof. reflexivity. Qed.
  (** tokens given to hooks, and what is left in the queue *)
  Lemma given_is : match parseFrom conf 60 (start, 0) eoiToken with
    | Done _ s => Some (flat_map (fun ev => match ev with EvToken _ _ t => [(tokContent t, tokPos t)] | _ => [] end) (rev (pLog s)), itemsOf content (fst (pWorld s)))
    | _ => None end = Some ([(bytes "a", 0)], [(text, 2)]).
  Proof. vm_compute. reflexivity. Qed.
End Example2.
(** With lookahead, tokens that follow the tree are lost when a parse without WithFullSource ends (parser.go:523-531: only the last token may be put
    back): the tree is "a", but "y" after it has been read as well. *)
Theorem lookahead_lost_refuted : exists (rs : list record) res (prefers : name -> list Z -> option Z) orders description ls SA
  (c : config (token (list Z)) (queueState Example2.content) Z (lexError (list Z)) Z Z) (x : list Z) src r s,
  madeFrom Example2.content nameEqb (fun e => e) prefers (fun _ => true) (fun _ => true) orders c description 100 rs res ls SA /\ wellFormed rs /\ quietHooks c /\ cTokenHooks c = [] /\ cFullSource c = false /\
  stringQueue Example2.content x = Some (queueOf Example2.content src) /\ parseFrom c 60 (src, 0) eoiToken = Done r s /\ x = bytes "ay" /\
  flat_map (fun ev => match ev with EvToken _ _ t => [(tokContent t, tokPos t)] | _ => [] end) (rev (pLog s)) = [(bytes "a", 0)] /\ itemsOf Example2.content (fst (pWorld s)) = [(x, 2)].
Proof.
  pose proof Example2.given_is as G. destruct (parseFrom Example2.conf 60 (Example2.start, 0) eoiToken) as [r s| | |] eqn:P; try discriminate G. injection G as G1 G2.
  exists Example2.rs, Example2.res, Example2.prefers, Example2.orders, Example2.description, Example2.ls, Example2.SA, Example2.conf, Example2.text, Example2.start, r, s.
  split; [exact Example2.made_ok|]. split; [exact Example2.wf_ok|]. split; [exact Example2.quiet_ok|]. split; [reflexivity|]. split; [reflexivity|]. split; [exact Example2.start_ok|]. split; [exact P|]. split; [reflexivity|]. split; [exact G1|exact G2].
Qed.
(** Lexers asked in turn for any token, that find nothing and have no errors. *)
Inductive silent {Tok Src E} : list (Src -> Z -> Src * (option Tok * option E)) -> Src -> Src -> Prop :=
| silent_nil src : silent [] src src
| silent_cons l r src src1 src2 : l src AllTokenTypes = (src1, (None, None)) -> silent r src1 src2 -> silent (l :: r) src src2.
(** When no lexer gives a token, and any token would do, the error is that of the first lexer that has one. *)
Theorem first_lexer_error {Tok Src E} (lexers : list (Src -> Z -> Src * (option Tok * option E))) src src' e : Parser.fetchLoop lexers AllTokenTypes src None = (src', (None, Some e)) ->
  exists before l after src1 src2 t, lexers = before ++ l :: after /\ silent before src src1 /\ l src1 AllTokenTypes = (src2, (t, Some e)).
Proof.
  revert src. induction lexers as [|l r IH]; intros src; cbn [Parser.fetchLoop]; [intros H; discriminate H|]. destruct (l src AllTokenTypes) as (src1, (t, er)) eqn:L.
  assert (KE : forall (ls : list (Src -> Z -> Src * (option Tok * option E))) s x, snd (snd (Parser.fetchLoop ls AllTokenTypes s (Some x))) = None \/ snd (snd (Parser.fetchLoop ls AllTokenTypes s (Some x))) = Some x).
  { induction ls as [|l1 ls IHl]; intros s x; cbn [Parser.fetchLoop]; [right; reflexivity|]. destruct (l1 s AllTokenTypes) as (s1, ([t1|], [e1|])); auto. }
  destruct er as [er|].
  - intros H. assert (X : Parser.fetchLoop r AllTokenTypes src1 (Some er) = (src', (None, Some e))) by (destruct t; exact H). destruct (KE r src1 er) as [K|K]; rewrite X in K; cbn in K; [discriminate|]. injection K as ->.
    exists [], l, r, src, src1, t. split; [reflexivity|]. split; [constructor|exact L].
  - destruct t as [t|]; [discriminate|]. intros H. destruct (IH src1 H) as (before & l0 & after & s1 & s2 & t & -> & A & B). exists (l :: before), l0, after, s1, s2, t. split; [reflexivity|]. split; [econstructor; eassumption|exact B].
Qed.
(** three lexers: nothing, an error, another error *)
Example first_lexer_error_met : Parser.fetchLoop [fun s _ => (s, (@None Z, @None Z)); fun s _ => (s, (None, Some 7)); fun s _ => (s, (Some 3, Some 8))] AllTokenTypes tt None = (tt, (None, Some 7)).
Proof. reflexivity. Qed.
Print Assumptions lookahead_lost_refuted.
Print Assumptions first_lexer_error.
