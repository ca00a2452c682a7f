(** Valid input of LL(1) descriptions is accepted (C49): from descriptions to parses. *)
From Coq Require Import ZArith List Bool Lia Sorted Relations Permutation.
From Verif Require Import Base BaseProofs Grammar RulesSpec Parser ParserSpec ParserSafeSpec ParserFlowSpec LangBuild LangSpec LangProofs LangFrame LangComplete LangTotal
  TablesSpec LangTables LangDrop LangShare LangFair LangRules LangInv Prop_LangStates Prop_LangTables LangTreeSpec LangNodes LangNodesSpec LangNodesProofs LangFirst LangRecursion Prop_LangNodes Prop_LangGrammar
  LangTypes LangTypesSpec LangTypesProofs LangCompile Prop_LangCompile PredictSpec PredictTree Prop_Predict PredictCheck ParserDemo ParserFuel.
Import ListNotations.
Open Scope Z_scope.

Lemma endless_eoiLast d : endless d = true -> forall last, eoiLast d last = true.
Proof.
  induction d as [t| |i|opt rep l IH|l IH] using chunk_nest; intros E last; try reflexivity; [discriminate E| |].
  - rewrite eoiLast_group. cbn [endless] in E. generalize (last && negb rep). intros b. induction l as [|c l IL]; [reflexivity|]. cbn [eoiLastSeq forallb] in *. apply andb_true_iff in E. destruct E as (E1 & E2).
    rewrite (IH c (or_introl eq_refl) E1). cbn [andb]. apply IL; [intros c' C; apply IH; right; exact C|exact E2].
  - cbn [endless eoiLast] in *. rewrite forallb_forall in E |- *. intros c C. apply IH; auto.
Qed.
Lemma derives_no_eoi st : (forall d w, derives st d w -> endless d = true -> ~ In SEoi w) /\ (forall l w, derivesSeq st l w -> forallb endless l = true -> ~ In SEoi w).
Proof. exact (derives_endless st). Qed.
Lemma firstToken_token defs : (forall i d, defined defs i d -> endless d = true) -> forall i t, firstToken defs i t -> exists j d, defined defs j d /\ mentionsToken d t.
Proof.
  intros EN i t. induction 1 as [i d t w G S|i d w G S|i d j u w t G S F IH]; [| |exact IH].
  - exists i, d. split; [exact G|]. eapply (proj1 (derives_tokens _)); [exact S|left; reflexivity].
  - destruct (proj1 (derives_no_eoi _) _ _ S (EN i d G) (or_introl eq_refl)).
Qed.

Section P.
Context {Tok Src W E Inst R : Type}.
Variable c : config Tok Src W E Inst R.
Notation g := (cGrammar c).
Notation tokenMatches := (tokenMatches (cType c) (cText c) (cUpper c) g).
Notation conforms := (conforms (Inst:=Inst) (R:=R) tokenMatches (fun t => isSide (cType c) g (Some t))).
Variable fullMatch : name -> name -> bool.
Variable tokens : list gtoken.
Variable layers : list glayer.
Variable names : list name.
Variable cs : list chunk.
Variables o1 o2 o3 : list Z.
(** tokens lexers may return *)
Variable lexed : Tok -> Prop.
Notation defs := (map Some cs).
Notation compileD fuel := (compileDescription fullMatch (cUpper c) fuel o1 o2 o3 tokens layers names defs).

(** Tokens of lexers are of the types of the description (not literals) with regular expressions, or ends of files and of the input.  If the text of a
    token is a literal (in upper case if the type ignores case), then the regular expression of its type matches it. *)
Record lexers : Prop := mkLexers {
  lx_type : forall t, lexed t -> cType c t = EofTokenType \/ cType c t = EoiTokenType \/
    exists d, zget tokens (cType c t) = Some d /\ cType c t < 64 /\ gtRe d <> [] /\ hasFlag (gtFlags d) LiteralToken = false /\
      forall lt, In lt tokens -> literalToken lt -> gtName lt = matchText (cText c) (cUpper c) t d -> hasFlag (gtFlags d) NoLiteralsToken = false ->
        fullMatch (gtRe d) (gtName lt) = true;
  lx_upper : forall s, cUpper c (cUpper c s) = cUpper c s
}.
(** Definitions: no [$]; parts in braces and brackets are such that the construction of states is right (see C18, C19, C20); no node
    is empty; tokens of the definitions are not side ones. *)
Record sound : Prop := mkSound {
  sd_defs : forall d, In d cs -> nodeDef d /\ loopsApart d = true /\ skipsApart d false = true /\ endless d = true;
  sd_empty : neverEmpty defs;
  sd_core : forall d k t, In d cs -> mentionsToken d k -> lexed t -> tokenMatches t k -> core c t = true
}.

(** May a token match both?  One of them is a literal, the other is a type the literal is of. *)
Definition couldBe (i b : Z) : bool :=
  match zget tokens i, zget tokens b with
  | Some lt, Some rt => hasFlag (gtFlags lt) LiteralToken && negb (hasFlag (gtFlags rt) LiteralToken) && negb (hasFlag (gtFlags rt) NoLiteralsToken) && fullMatch (gtRe rt) (gtName lt)
  | _, _ => false
  end.
Definition conflictOf (k k' : Z) : bool := (k =? k') || couldBe k k' || couldBe k' k.

Hypothesis RW : readWell tokens names defs.
Hypothesis P1 : Permutation o1 (indexes (length defs)).
Hypothesis P2 : Permutation o2 (indexes (length defs)).
Hypothesis P3 : Permutation o3 (indexes (length defs)).
Hypothesis LX : lexers.
Hypothesis SD : sound.

Lemma In_defined d : In d cs <-> exists i, defined defs i d.
Proof.
  split.
  - intros D. apply In_zget in D. destruct D as (i & G). exists i. unfold defined. rewrite zget_map, G. reflexivity.
  - intros (i & G). unfold defined in G. rewrite zget_map in G. destruct (zget cs i) eqn:X; [|discriminate]. injection G as ->. eapply zget_In, X.
Qed.
Lemma endless_defs i d : defined defs i d -> endless d = true.
Proof. intros G. apply (sd_defs SD d). apply In_defined. eauto. Qed.

Section G.
Hypothesis AB : allBegin defs.
Variable firsts : list (list Z).
Hypothesis FX : forall i t, 0 <= i < zlen defs -> (In t (firstsOf firsts i) <-> firstToken defs i t).
Hypothesis C : compiled tokens layers names firsts cs g.
Hypothesis TE : typesExact fullMatch (cUpper c) tokens g.

Lemma written_cs d : In d cs -> written d.
Proof. intros D. apply In_defined in D. destruct D as (i & G). apply (ds_written _ (rw_described _ _ _ RW) i d G). Qed.
Lemma mentions_range d i : In d cs -> mentions d i -> 0 <= i < zlen defs.
Proof. intros D M. apply In_defined in D. destruct D as (j & G). apply (ds_refers _ (rw_described _ _ _ RW) j i). exists d. auto. Qed.
Lemma first_tokens d i t : In d cs -> mentions d i -> In t (firstsOf firsts i) -> exists d', In d' cs /\ mentionsToken d' t.
Proof. intros D M I. apply FX in I; [|eapply mentions_range; eassumption]. apply (firstToken_token defs endless_defs) in I. destruct I as (j & d' & G & MT). exists d'. split; [apply In_defined; eauto|exact MT]. Qed.
Lemma token_range d t : In d cs -> mentionsToken d t -> 0 <= t < zlen tokens.
Proof. intros D M. apply In_defined in D. destruct D as (j & G). eapply (rw_tokens _ _ _ RW); eassumption. Qed.
Lemma is_plain : plain firsts cs.
Proof.
  split.
  - intros d D. split; [apply (sd_defs SD d D)|apply written_cs, D].
  - intros d D. apply (sd_defs SD d D).
  - intros d D. apply (sd_defs SD d D).
  - intros d D. apply endless_eoiLast, (sd_defs SD d D).
  - intros d i D M. pose proof (mentions_range d i D M) as RG. split.
    + destruct (AB i RG) as (t & T). apply (FX i t RG) in T. intros X. rewrite X in T. exact T.
    + intros t T. destruct (first_tokens d i t D M T) as (d' & D' & MT). apply (token_range d' t D' MT).
Qed.
Lemma zlen_map_cs : zlen defs = zlen cs.
Proof. unfold zlen. rewrite map_length. reflexivity. Qed.
Lemma cs_some : cs <> [].
Proof. intros X. apply (rw_root _ _ _ RW). rewrite X. reflexivity. Qed.
Lemma is_ok : grammarOk c.
Proof.
  apply (compiled_grammar_ok_partial c tokens layers names firsts cs C cs_some).
  - assert (RG : 0 <= 0 < zlen defs). { rewrite zlen_map_cs. pose proof cs_some. unfold zlen. destruct cs; [contradiction|cbn; lia]. }
    destruct (AB 0 RG) as (t & T). apply (firstToken_token defs endless_defs) in T. destruct T as (j & d & G & M).
    assert (X : 0 <= t < zlen tokens) by (eapply (rw_tokens _ _ _ RW); eassumption). intros ->. cbn in X. lia.
  - intros d D. split; [apply written_cs, D|apply (sd_defs SD d D)].
  - intros d i D M. pose proof (mentions_range d i D M) as RG. rewrite zlen_map_cs in RG. split; [lia|]. intros t T. destruct (first_tokens d i t D M T) as (d' & D' & MT). apply (token_range d' t D' MT).
  - intros d t D M. apply (token_range d t D M).
Qed.
Lemma tokens_eq : gTokens g = tokens.
Proof. destruct (compiled_rules _ _ _ _ _ _ written_cs C) as (_ & _ & _ & _ & _ & _ & _ & X & _). exact X. Qed.
(** rules are for tokens of the definitions *)
Lemma rule_tokens j r : ruleOf g j r -> rToken r = AnyToken \/ exists d, In d cs /\ mentionsToken d (rToken r).
Proof.
  intros HR. destruct (compiled_rule_tokens _ _ _ _ _ _ written_cs C j r HR) as [(X & _)|(d & D & U)]; [auto|right].
  apply uses_what in U. destruct U as [(_ & [M|X])|(M & I)]; [eauto|rewrite (proj2 (proj2 (proj2 (sd_defs SD d D)))) in X; discriminate|]. eapply first_tokens; eassumption.
Qed.
Lemma reads_token j r : ruleOf g j r -> reads r -> 0 <= rToken r < zlen tokens /\ exists d, In d cs /\ mentionsToken d (rToken r).
Proof. intros HR N. destruct (rule_tokens j r HR) as [X|(d & D & M)]; [destruct (N X)|]. split; [apply (token_range d _ D M)|eauto]. Qed.
Lemma is_core : coreRules c lexed.
Proof. intros j r t HR RD L TM. destruct (reads_token j r HR RD) as (_ & d & D & M). eapply (sd_core SD); eassumption. Qed.

(** *** Types *)
Lemma literal_kind i lt : zget tokens i = Some lt -> hasFlag (gtFlags lt) LiteralToken = true -> literalToken lt.
Proof.
  intros G F. destruct (rw_arranged _ _ _ RW) as (a & b & d & X & FA & FB & FD). apply zget_In in G. rewrite X in G. rewrite !in_app_iff in G. rewrite Forall_forall in *.
  destruct G as [G|[G|G]]; [destruct (FA lt G); congruence|destruct (FB lt G); congruence|apply FD, G].
Qed.
Lemma is_typed : typesOk c lexed.
Proof.
  intros j st r t GS HR RD L TM. destruct (reads_token j r HR RD) as (K0 & _). pose proof TM as (keys & K & I).
  assert (W1 : wanted c (sTypes st) (cType c t)).
  { assert (OWN : cType c t = rToken r -> wanted c (sTypes st) (cType c t)).
    { intros EQ. unfold wanted. destruct (Z.ltb_spec (cType c t) 0); [lia|]. apply (TE j st GS); [lia|]. right. exists r. split; [exact HR|]. split; [lia|].
      destruct (lx_type LX t L) as [X|[X|(d & G & _ & _ & NL & _)]]; [unfold EofTokenType, Lexer.EofTokenType in X; lia|unfold EoiTokenType, Lexer.EoiTokenType in X; lia|]. rewrite EQ in *. eapply MB_type; [exact G|exact NL|reflexivity]. }
    assert (LIT : forall i, literalFor (cType c) (cText c) (cUpper c) g t i -> i = rToken r -> wanted c (sTypes st) (cType c t)).
    { intros i [d GT NL ((lt & GL & LF & LN) & _)] ->. rewrite tokens_eq in GT, GL. pose proof (zget_Some_inv _ _ _ GT) as TR. unfold wanted. destruct (Z.ltb_spec (cType c t) 0); [lia|].
      apply (TE j st GS); [lia|]. right. exists r. split; [exact HR|]. split; [lia|].
      destruct (lx_type LX t L) as [X|[X|(d' & G & _ & NR & NLF & MT)]]; [unfold EofTokenType, Lexer.EofTokenType in X; lia|unfold EoiTokenType, Lexer.EoiTokenType in X; lia|]. rewrite GT in G. injection G as <-.
      pose proof (literal_kind _ _ GL LF) as LK. pose proof (MT lt (zget_In _ _ _ GL) LK LN NL) as FM. eapply MB_literal; [exact GL|exact LK|exact GT|]. split; [split; assumption|exact NL| |exact FM].
      intros CL. rewrite LN. unfold matchText. rewrite CL. apply (lx_upper LX). }
    inversion K as [|t' N|t' i LI NR|t' i LI RS]; subst.
    + destruct I as [I|[I|[]]]; [apply OWN, I|destruct (RD (eq_sym I))].
    + destruct I as [I|[I|[I|[]]]]; [eapply LIT; eassumption|apply OWN, I|destruct (RD (eq_sym I))].
    + destruct I as [I|[I|[]]]; [eapply LIT; eassumption|destruct (RD (eq_sym I))]. }
  split; [exact W1|]. clear keys K I. intros t' L' CO. unfold core in CO. apply andb_false_iff in CO. destruct CO as [CO|CO]; apply negb_false_iff in CO.
    + unfold sideToken in CO. destruct (zget (gTokens g) (cType c t')) as [d|] eqn:G; [|discriminate]. rewrite tokens_eq in G. pose proof (zget_Some_inv _ _ _ G) as TR. unfold wanted. destruct (Z.ltb_spec (cType c t') 0); [lia|].
      apply (TE j st GS); [lia|]. left. exists d. auto.
    + apply Z.eqb_eq in CO. rewrite CO. unfold wanted at 1. cbn. destruct (lx_type LX t L) as [X|[X|(d & G & L6 & NR & _)]].
      * unfold wanted in W1. rewrite X in W1. exact W1.
      * unfold wanted in W1. rewrite X in W1. exact W1.
      * exists (cType c t). split; [exact L6|]. split; [exists d; rewrite tokens_eq; auto|]. unfold wanted in W1. destruct (Z.ltb_spec (cType c t) 0); [apply zget_Some_inv in G; lia|exact W1].
Qed.

Lemma conflict_sound t k k' : lexed t -> k <> AnyToken -> k' <> AnyToken -> tokenMatches t k -> tokenMatches t k' -> conflictOf k k' = true.
Proof.
  intros L NA NA' (keys & K & I) (keys' & K' & I').
  assert (LB : forall i, literalFor (cType c) (cText c) (cUpper c) g t i -> couldBe i (cType c t) = true).
  { intros i [d GT NL ((lt & GL & LF & LN) & _)]. rewrite tokens_eq in GT, GL. pose proof (zget_Some_inv _ _ _ GT) as TR.
    destruct (lx_type LX t L) as [X|[X|(d' & G & _ & NR & NLF & MT)]]; [unfold EofTokenType, Lexer.EofTokenType in X; lia|unfold EoiTokenType, Lexer.EoiTokenType in X; lia|]. rewrite GT in G. injection G as <-.
    pose proof (MT lt (zget_In _ _ _ GL) (literal_kind _ _ GL LF) LN NL) as FM. unfold couldBe. rewrite GL, GT, LF, NLF, NL, FM. reflexivity. }
  assert (LU : forall i j, literalFor (cType c) (cText c) (cUpper c) g t i -> literalFor (cType c) (cText c) (cUpper c) g t j -> i = j).
  { intros i j [d GT _ LI] [d' GT' _ LJ]. rewrite GT in GT'. injection GT' as <-. destruct LI as (AI & BI), LJ as (AJ & BJ). specialize (BJ i AI). specialize (BI j AJ). lia. }
  assert (X : forall key ks, keysOf (cType c) (cText c) (cUpper c) g (Some t) ks -> In key ks -> key <> AnyToken -> key = cType c t \/ literalFor (cType c) (cText c) (cUpper c) g t key).
  { intros key ks KO IK NK. inversion KO as [|t' N|t' i LI NR|t' i LI RS]; subst; cbn in IK; intuition congruence. }
  unfold conflictOf. destruct (X k keys K I NA) as [->|A], (X k' keys' K' I' NA') as [->|B].
  - rewrite Z.eqb_refl. reflexivity.
  - rewrite (LB k' B), !orb_true_r. reflexivity.
  - rewrite (LB k A), !orb_true_r. reflexivity.
  - rewrite (LU k k' A B), Z.eqb_refl. reflexivity.
Qed.

(** *** Rules for nested nodes *)
Definition okDef (d : chunk) : Prop := (forall k, mentionsToken d k -> exists d', In d' cs /\ mentionsToken d' k) /\ endless d = true.
Lemma okDef_group opt rep l d : okDef (CGroup opt rep l) -> In d l -> okDef d.
Proof. intros (A & B) D. split; [intros k M; apply A; econstructor; eassumption|]. cbn [endless] in B. rewrite forallb_forall in B. apply B, D. Qed.
Lemma leavesL_app (ts us : list (tree Tok Inst R)) : leavesL (ts ++ us) = leavesL ts ++ leavesL us.
Proof. unfold leavesL. rewrite map_app, concat_app. reflexivity. Qed.
Lemma core_sides (kids kept : list (tree Tok Inst R)) : withSides (fun t => isSide (cType c) g (Some t)) kids kept -> filter (core c) (leavesL kids) = filter (core c) (leavesL kept) /\ forall t, In t (leavesL kept) -> In t (leavesL kids).
Proof.
  unfold leavesL. induction 1 as [|t l kept S WS IH|T l kept WS IH].
  - auto.
  - cbn [map concat ParserSpec.leaves app filter]. assert (X : core c t = false). { unfold core, sideToken. destruct S as (t' & Y & d & G & F). injection Y as <-. rewrite G, F. reflexivity. } rewrite X.
    destruct IH as (A & B). split; [exact A|]. intros u U. right. apply B, U.
  - cbn [map concat]. rewrite !filter_app. destruct IH as (A & B). rewrite A. split; [reflexivity|]. intros t I. apply in_app_iff in I. apply in_app_iff. destruct I as [I|I]; auto.
Qed.
Lemma conforms_produces i T : conforms cs i T -> (forall t, In t (ParserSpec.leaves T) -> lexed t) -> exists w, produces defs (CNode i) w /\ Forall2 tokenMatches (filter (core c) (ParserSpec.leaves T)) w.
Proof.
  revert i T. refine (conforms_mind Tok Inst R tokenMatches (fun t => isSide (cType c) g (Some t)) cs
    (fun d ts => okDef d -> (forall t, In t (leavesL ts) -> lexed t) -> exists w, produces defs d w /\ Forall2 tokenMatches (filter (core c) (leavesL ts)) w)
    (fun l ts => (forall d, In d l -> okDef d) -> (forall t, In t (leavesL ts) -> lexed t) -> exists w, producesSeq defs l w /\ Forall2 tokenMatches (filter (core c) (leavesL ts)) w)
    (fun i T => (forall t, In t (ParserSpec.leaves T) -> lexed t) -> exists w, produces defs (CNode i) w /\ Forall2 tokenMatches (filter (core c) (ParserSpec.leaves T)) w) _ _ _ _ _ _ _ _ _ _).
  - intros k t TM (OK & _) L. exists [k]. split; [constructor|]. destruct (OK k (MT_tok k)) as (d & D & M). unfold leavesL in *. cbn [map concat ParserSpec.leaves app filter] in *.
    rewrite (sd_core SD d k t D M (L t (or_introl eq_refl)) TM). constructor; [exact TM|constructor].
  - intros t TM (_ & EN). discriminate EN.
  - intros i T _ IH _ L. unfold leavesL in *. cbn [map concat] in *. rewrite app_nil_r in *. apply IH, L.
  - intros l d ts D _ IH (A & B) L. cbn [endless] in B. rewrite forallb_forall in B. destruct IH as (w & PW & F); [split; [intros k M; apply A; econstructor; eassumption|apply B, D]|exact L|]. exists w. split; [econstructor; eassumption|exact F].
  - intros opt rep l ts _ IH OK L. destruct IH as (w & PW & F); [intros d D; eapply okDef_group; eassumption|exact L|]. exists w. split; [constructor; exact PW|exact F].
  - intros rep l _ _. exists []. split; [apply P_never|constructor].
  - intros opt l ts us _ IH _ IH' OK L. rewrite leavesL_app in *. destruct IH as (w & PW & F); [intros d D; eapply okDef_group; eassumption|intros t I; apply L, in_app_iff; auto|].
    destruct IH' as (v & PV & F'); [exact OK|intros t I; apply L, in_app_iff; auto|]. exists (w ++ v). split; [apply P_again; assumption|]. rewrite filter_app. apply Forall2_app; assumption.
  - intros _ _. exists []. split; constructor.
  - intros d l ts us _ IH _ IH' OK L. rewrite leavesL_app in *. destruct IH as (w & PW & F); [apply OK; left; reflexivity|intros t I; apply L, in_app_iff; auto|].
    destruct IH' as (v & PV & F'); [intros d' D; apply OK; right; exact D|intros t I; apply L, in_app_iff; auto|]. exists (w ++ v). split; [constructor; assumption|]. rewrite filter_app. apply Forall2_app; assumption.
  - intros i d t0 hooks results kids kept G WS _ IH L. destruct (core_sides _ _ WS) as (X & Y). pose proof (zget_In _ _ _ G) as D.
    destruct IH as (w & PW & F); [split; [eauto|apply (sd_defs SD d D)]|intros t I; apply L; rewrite leaves_node; apply Y; exact I|]. exists w. split; [eapply P_nested; [|exact PW]; unfold defined; rewrite zget_map, G; reflexivity|].
    rewrite leaves_node, X. exact F.
Qed.
Lemma rules_together j r k : ruleOf g j r -> rNode r <> SameNode -> In k (firstsOf firsts (rNode r)) -> ruleOf g j (mkRule k (rState r) (rNode r)).
Proof.
  intros HR NS I. destruct (compiled_rules _ _ _ _ _ _ written_cs C) as (fs & es & fs' & es' & ST & _ & DR & _ & _ & _ & _ & RU).
  assert (K0 : 0 <= k). { destruct (compiled_rule_tokens _ _ _ _ _ _ written_cs C j r HR) as [(_ & X)|(d & D & U)]; [destruct (NS X)|]. apply uses_node in U. destruct U as [X|M]; [destruct (NS X)|]. apply (pl_firsts _ _ is_plain d _ D M), I. }
  destruct (drop_keeps_machine_partial firsts cs fs es) as (fs1 & es1 & phi & DR1 & [S1 S2 S3 S4 S5]).
  - intros d D. split; [apply written_cs, D|apply (sd_defs SD d D)].
  - intros d i t D M. apply (pl_firsts _ _ is_plain d i D M).
  - exact ST.
  - rewrite DR in DR1. injection DR1 as <- <-. apply RU in HR. apply RU. assert (X : exists x, inUse fs es x /\ phi x = j). { destruct HR as (e & G & _). apply (S5 j e G). }
    destruct X as (x & X & <-). apply (S2 x X) in HR. apply (S2 x X). destruct HR as (r0 & HR & ->). cbn [rename rState rNode] in *.
    destruct ST as (p & B & RT). destruct (brothers_nodes firsts cs written_cs fs p B) as (_ & BR). apply (retyped_has _ _ _ _ RT) in HR.
    exists (mkRule k (rState r0) (rNode r0)). split; [|reflexivity]. apply (retyped_has _ _ _ _ RT). apply (BR x r0 HR NS k I K0).
Qed.
Lemma is_nested : nodeRules c lexed.
Proof.
  assert (X : forall j r (T : tree Tok Inst R), ruleOf g j r -> rNode r <> SameNode -> derived (cType c) (cText c) (cUpper c) g (rNode r) T -> (forall t, In t (ParserSpec.leaves T) -> lexed t) ->
      0 <= rNode r < zlen defs /\ exists w, produces defs (CNode (rNode r)) w /\ Forall2 tokenMatches (filter (core c) (ParserSpec.leaves T)) w).
  { intros j r T HR NS D L. split; [|apply conforms_produces; [|exact L]; apply (grammar_trees_exactly_partial _ _ _ _ _ _ _ _ _ is_plain C), D].
    destruct (compiled_rule_tokens _ _ _ _ _ _ written_cs C j r HR) as [(_ & X)|(d & DD & U)]; [destruct (NS X)|]. apply uses_node in U. destruct U as [X|M]; [destruct (NS X)|]. eapply mentions_range; eassumption. }
  split.
  - intros j r T HR NS D L EM. destruct (X j r T HR NS D L) as (RG & w & PW & F). rewrite EM in F. inversion F; subst. destruct (sd_empty SD _ PW).
  - intros j r T t u HR NS D L EM. destruct (X j r T HR NS D L) as (RG & w & PW & F). rewrite EM in F. inversion F as [|? k ? w' TM F']; subst.
    destruct (proj1 (produces_first defs (rw_described _ _ _ RW) (sd_empty SD)) _ _ PW k w' eq_refl) as (x & HX & FT). inversion HX; subst. apply (FX _ _ RG) in FT.
    pose proof (rules_together j r k HR NS FT) as HR'. eexists. split; [exact HR'|]. cbn [rNode rState rToken]. split; [reflexivity|]. split; [reflexivity|]. split; [|exact TM].
    intros Y. cbn [rToken] in Y. destruct (compiled_rule_tokens _ _ _ _ _ _ written_cs C j r HR) as [(_ & Z)|(d & DD & U)]; [destruct (NS Z)|]. apply uses_node in U. destruct U as [Z|M]; [destruct (NS Z)|].
    pose proof (proj2 (pl_firsts _ _ is_plain d _ DD M) k FT). unfold AnyToken in Y. lia.
Qed.
Lemma is_predictive : predictive c lexed -> predictiveGrammar c lexed.
Proof.
  intros PR. split; [exact is_ok|exact PR|exact is_core|exact is_nested|exact is_typed|]. intros j r HR X. destruct (rule_tokens j r HR) as [Y|(d & D & M)]; [rewrite X in Y; discriminate|].
  pose proof (token_range d _ D M) as Z. rewrite X in Z. unfold EoiTokenType, Lexer.EoiTokenType in Z. lia.
Qed.
End G.

(** *** C49 *)
(** A description is compiled; the tables are LL(1) ones.  The source is accepted if and only if its tokens (up to side tokens and ends
    of files) are the tokens of some tree of the description. *)
Theorem description_accepts_exactly_partial (fair : Src -> Prop) (view : Src -> list Tok) eoi w t0 :
  forall cfuel, compileD cfuel = Compiled g ->
  predictive c lexed -> calmHooks c -> willing c lexed fair view eoi -> fair (fst w) -> unreadOf c view -> cFullSource c = true ->
  (forall t, In t (view (fst w)) -> cType c t <> EoiTokenType) ->
  (exists n, forall fuel, (n <= fuel)%nat -> exists r s, parseFrom c fuel w t0 = Done r s) <->
  (exists T : tree Tok Inst R, conforms cs RootNode T /\ (forall t, In t (ParserSpec.leaves T) -> lexed t) /\
     filter (core c) (ParserSpec.leaves T) = filter (core c) (view (fst w))).
Proof.
  intros cfuel CD PR CH WI FA UR FS NE. destruct (compile_any fullMatch (cUpper c) tokens layers names defs o1 o2 o3 RW P1 P2 P3 cfuel _ CD) as (_ & _ & AB & (cs' & firsts & CS & _ & FX & C & _) & TE & TS).
  assert (cs' = cs) as ->. { clear - CS. revert cs CS. induction cs' as [|x l IH]; intros [|y m] H; try discriminate; [reflexivity|]. injection H as -> H. f_equal. apply IH, H. }
  pose proof (is_predictive AB firsts FX C TE PR) as PG.
  rewrite (accepted_exactly c lexed fair view eoi w t0 PG CH WI FA UR FS NE). unfold treeFor. pose proof (is_plain AB firsts FX) as PL. split; intros (T & D & X); exists T; (split; [|exact X]).
  - apply (grammar_trees_exactly_partial _ _ _ _ _ _ _ _ _ PL C), D.
  - apply (grammar_trees_exactly_partial _ _ _ _ _ _ _ _ _ PL C), D.
Qed.
(** The condition on the tables may be checked by a computation. *)
Theorem description_tables_checked cfuel fuel : compileD cfuel = Compiled g -> predictiveB g conflictOf fuel = true -> predictive c lexed.
Proof.
  intros CD. apply predictive_checked. destruct (compile_any fullMatch (cUpper c) tokens layers names defs o1 o2 o3 RW P1 P2 P3 cfuel _ CD) as (_ & _ & _ & (cs' & firsts & CS & _ & _ & C & _) & _).
  assert (cs' = cs) as ->. { clear - CS. revert cs CS. induction cs' as [|x l IH]; intros [|y m] H; try discriminate; [reflexivity|]. injection H as -> H. f_equal. apply IH, H. }
  intros t k k'. apply (conflict_sound firsts C).
Qed.
End P.

(** root = item, {'+', item}; item = $name; (tokens: space 0 (side), name 1, op 2, '+' 3); a token is a type and the code of a character *)
Module Example1.
  Definition fullMatch (re text : name) : bool :=
    match re, text with
    | [1], [x] => x =? 32
    | [2], [x] => (97 <=? x) && (x <=? 122)
    | [3], [x] => (x =? 43) || (x =? 45)
    | _, _ => false
    end.
  Definition tokens : list gtoken := [mkTok [1] [1] 0 SideToken; mkTok [2] [2] 0 0; mkTok [3] [3] 0 0; mkTok [43] [] 0 LiteralToken].
  Definition cs : list chunk := [CGroup false false [CNode 1; CGroup true true [CTok 3; CNode 1]]; CGroup false false [CTok 1]].
  Definition names : list name := [[10]; [11]].
  Definition g : grammar := match compileDescription fullMatch (fun x => x) 20 [0; 1] [1; 0] [0; 1] tokens [] names (map Some cs) with Compiled g => g | _ => mkGrammar [] [] [] [] [] [] end.
  Definition conf : config dTok (list dTok) Z Z Z Z := let d := demo g [] true true in
    mkConfig fst (fun t => [snd t]) (fun x => x) dMethods g [Prop_ParserSafe.Example1.kLexer 3] (fun _ => None) [] (cNodeHooks d) (cCtx d) true true true (fun t src => t :: src).
  Definition tokenOk (t : dTok) : Prop := 0 <= fst t < 3 /\ fullMatch [fst t + 1] [snd t] = true.
  Definition lexed (t : dTok) : Prop := tokenOk t \/ t = dEoi.
  Definition fair (src : list dTok) : Prop := forall t, In t src -> tokenOk t.
  Definition view (src : list dTok) : list dTok := src.
  Example is_compiled : compileDescription fullMatch (cUpper conf) 20 [0; 1] [1; 0] [0; 1] tokens [] names (map Some cs) = Compiled (cGrammar conf).
  Proof. vm_compute. reflexivity. Qed.
  Example read_well : readWell tokens names (map Some cs).
  Proof. apply readWellb_ok. vm_compute. reflexivity. Qed.
  Lemma token_cases t : tokenOk t -> t = (0, 32) \/ (fst t = 1 /\ 97 <= snd t <= 122) \/ t = (2, 43) \/ t = (2, 45).
  Proof.
    destruct t as (a, x). intros (R & F). cbn [fst snd] in *. assert (C : a = 0 \/ a = 1 \/ a = 2) by lia. destruct C as [->|[->| ->]]; cbn [fullMatch Z.add] in F; change (0 + 1) with 1 in F; change (1 + 1) with 2 in F; change (2 + 1) with 3 in F; cbn [fullMatch] in F.
    - left. apply Z.eqb_eq in F. congruence.
    - right. left. apply andb_true_iff in F. lia.
    - right. right. apply orb_true_iff in F. destruct F as [F|F]; apply Z.eqb_eq in F; subst; auto.
  Qed.
  Example lexers_ok : lexers conf fullMatch tokens lexed.
  Proof.
    constructor; [|reflexivity]. intros t [T|T]; [|subst; auto]. right. right. apply token_cases in T.
    assert (L : forall lt, In lt tokens -> literalToken lt -> gtName lt = [43]). { intros lt I (_ & F). cbn in I. destruct I as [<-|[<-|[<-|[<-|[]]]]]; try discriminate F. reflexivity. }
    destruct T as [->|[(A & B)|[->| ->]]].
    - eexists. split; [reflexivity|]. split; [reflexivity|]. split; [discriminate|]. split; [reflexivity|]. intros lt I K N _. rewrite (L lt I K) in N. discriminate N.
    - destruct t as (a, x). cbn in A, B. subst a. eexists. split; [reflexivity|]. split; [reflexivity|]. split; [discriminate|]. split; [reflexivity|]. intros lt I K N _. rewrite (L lt I K) in N. injection N as N. lia.
    - eexists. split; [reflexivity|]. split; [reflexivity|]. split; [discriminate|]. split; [reflexivity|]. intros lt I K _ _. rewrite (L lt I K). reflexivity.
    - eexists. split; [reflexivity|]. split; [reflexivity|]. split; [discriminate|]. split; [reflexivity|]. intros lt I K N _. rewrite (L lt I K) in N. discriminate N.
  Qed.
  Example sound_ok : sound conf cs lexed.
  Proof.
    constructor.
    - intros d D. cbn in D. destruct D as [<-|[<-|[]]]; (split; [eexists; reflexivity|]; split; [|split]; reflexivity).
    - apply solid_neverEmpty. intros i d G. unfold defined in G. apply zget_In in G. cbn in G. destruct G as [G|[G|[]]]; injection G as <-; reflexivity.
    - intros d k t D M [T|T] TM.
      + apply token_cases in T. destruct T as [->|[(A & B)|[->| ->]]]; try reflexivity.
        * exfalso. apply chunkTokens_In in M. assert (K : k = 3 \/ k = 1) by (cbn in D; destruct D as [<-|[<-|[]]]; cbn in M; intuition). destruct TM as (keys & KO & I).
          assert (NL : forall i, ~ literalFor (cType conf) (cText conf) (cUpper conf) (cGrammar conf) (0, 32) i).
          { intros i [e GT _ ((lt & GL & LF & LN) & _)]. apply zget_In in GL. vm_compute in GT. injection GT as <-. change (gTokens (cGrammar conf)) with tokens in GL. cbn in GL. destruct GL as [<-|[<-|[<-|[<-|[]]]]]; try discriminate LF. discriminate LN. }
          inversion KO as [|t' N|t' i LI NR|t' i LI RS]; subst; [|destruct (NL _ LI)..]. cbn in I. unfold AnyToken in I. lia.
        * destruct t as (a, x). cbn in A. subst a. reflexivity.
      + subst. reflexivity.
  Qed.
  Example tables_ok : predictive conf lexed.
  Proof. apply (description_tables_checked conf fullMatch tokens [] names cs [0; 1] [1; 0] [0; 1] lexed read_well) with (cfuel := 20%nat) (fuel := 20%nat); try exact is_compiled; try exact lexers_ok; try (vm_compute; reflexivity).
    apply perm_swap.
  Qed.
  Example calm_ok : calmHooks conf.
  Proof.
    constructor.
    - constructor; try reflexivity. intros table h n t w [<-|[]] [X|X]; [injection X as <-; reflexivity|]. apply in_map_iff in X as (x & X & _). discriminate.
    - pose proof (demo_quiet g [] true true ltac:(intros ? ? ? [])) as []. constructor; assumption.
    - reflexivity.
    - intros table [<-|[]]. reflexivity.
  Qed.
  Lemma some_type : wanted conf AllTokenTypes EoiTokenType.
  Proof. exists 0. split; [reflexivity|]. split; [|reflexivity]. eexists. split; [reflexivity|discriminate]. Qed.
  Example willing_ok : willing conf lexed fair view dEoi.
  Proof.
    assert (BIT : forall x, 0 <= x < 64 -> Z.testbit AllTokenTypes x = true) by (intros x H; change AllTokenTypes with (Z.ones 64); apply Z.ones_spec_low; exact H).
    constructor.
    - split; [reflexivity|]. unfold fetchToken. split; intros types [|t src] src'; cbn [conf cLexers fetchLoop Prop_ParserSafe.Example1.kLexer].
      + intros x H. injection H as <- <-. auto.
      + intros x. destruct (_ && _); [destruct (Z.testbit types (fst t))|].
        * intros H. injection H as <- <-. auto.
        * discriminate.
        * discriminate.
      + discriminate.
      + destruct (_ && _); [destruct (Z.testbit types (fst t))|]; intros H; try discriminate H; apply (f_equal fst) in H; cbn in H; subst src'; reflexivity.
    - intros types [|t src] F; unfold fetchToken; cbn [conf cLexers fetchLoop Prop_ParserSafe.Example1.kLexer].
      + eexists _, _. split; [reflexivity|exact F].
      + pose proof (proj1 (F t (or_introl eq_refl))) as B. destruct (Z.leb_spec 0 (fst t)); [|lia]. destruct (Z.ltb_spec (fst t) 3); [|lia]. cbn [andb].
        destruct (Z.testbit types (fst t)) eqn:T.
        * eexists _, _. split; [reflexivity|]. intros x I. apply F. right. exact I.
        * destruct (Z.eqb_spec types AllTokenTypes) as [->|]; [rewrite BIT in T by lia; discriminate|]. eexists _, _. split; [reflexivity|exact F].
    - intros src t F I. left. apply F, I.
    - right. reflexivity.
    - intros t [(L & _)|L]; [left; change (cType conf t) with (fst t); split; [lia|]; assert (C : fst t = 0 \/ fst t = 1 \/ fst t = 2) by lia; destruct C as [->|[->| ->]]; (eexists; split; [reflexivity|discriminate])|]. right. right. rewrite L. reflexivity.
    - exact some_type.
    - intros types [|t src] src' F; unfold fetchToken; cbn [conf cLexers fetchLoop Prop_ParserSafe.Example1.kLexer]; [discriminate|].
      pose proof (proj1 (F t (or_introl eq_refl))) as B. destruct (Z.leb_spec 0 (fst t)); [|lia]. destruct (Z.ltb_spec (fst t) 3); [|lia]. cbn [andb].
      destruct (Z.testbit types (fst t)) eqn:T; [discriminate|]. intros _. cbn [view hd]. unfold wanted. change (cType conf t) with (fst t). destruct (Z.ltb_spec (fst t) 0); [lia|]. rewrite T. discriminate.
  Qed.
  Definition good : list dTok := [(1, 97); (0, 32); (2, 43); (1, 98)].
  Definition bad : list dTok := [(1, 97); (2, 45); (1, 98)].
  Lemma exactly input : fair input ->
    (exists n, forall fuel, (n <= fuel)%nat -> exists r s, parseFrom conf fuel (input, 0) (0, 1) = Done r s) <->
    (exists T : tree dTok Z Z, conforms (Inst := Z) (R := Z) (tokenMatches (cType conf) (cText conf) (cUpper conf) (cGrammar conf)) (fun t => isSide (cType conf) (cGrammar conf) (Some t)) cs RootNode T /\ (forall t, In t (ParserSpec.leaves T) -> lexed t) /\
      filter (core conf) (ParserSpec.leaves T) = filter (core conf) (view input)).
  Proof.
    intros F. apply (description_accepts_exactly_partial conf fullMatch tokens [] names cs [0; 1] [1; 0] [0; 1] lexed read_well (Permutation_refl _) (perm_swap _ _ _) (Permutation_refl _) lexers_ok sound_ok fair view dEoi (input, 0) (0, 1) 20 is_compiled tables_ok calm_ok willing_ok).
    - exact F.
    - intros types src src' t _ _ _. reflexivity.
    - reflexivity.
    - intros t I. apply F in I. destruct I as (B & _). change (cType conf t) with (fst t). unfold EoiTokenType, Lexer.EoiTokenType. lia.
  Qed.
  (** "a +b" is accepted, "a-b" is not: so the former has a tree, the latter has none *)
  Lemma good_ok : fair good.
  Proof. intros t I. cbn in I. destruct I as [<-|[<-|[<-|[<-|[]]]]]; (split; [cbn; lia|reflexivity]). Qed.
  Lemma bad_ok : fair bad.
  Proof. intros t I. cbn in I. destruct I as [<-|[<-|[<-|[]]]]; (split; [cbn; lia|reflexivity]). Qed.
  Example accepted : exists n, forall fuel, (n <= fuel)%nat -> exists r s, parseFrom conf fuel (good, 0) (0, 1) = Done r s.
  Proof.
    exists 50%nat. intros fuel L. destruct (parseFrom conf 50 (good, 0) (0, 1)) as [r s| | |] eqn:P; [|vm_compute in P; discriminate P..].
    destruct (le_parseFrom conf 50 fuel (good, 0) (0, 1) L) as [(s' & X)|X]; [congruence|]. exists r, s. congruence.
  Qed.
  Example rejected : ~ exists T : tree dTok Z Z, conforms (Inst := Z) (R := Z) (tokenMatches (cType conf) (cText conf) (cUpper conf) (cGrammar conf)) (fun t => isSide (cType conf) (cGrammar conf) (Some t)) cs RootNode T /\ (forall t, In t (ParserSpec.leaves T) -> lexed t) /\
      filter (core conf) (ParserSpec.leaves T) = filter (core conf) (view bad).
  Proof.
    intros H. apply (exactly bad bad_ok) in H. destruct H as (n & P). destruct (P (n + 50)%nat ltac:(lia)) as (r & s & X).
    destruct (parseFrom conf 50 (bad, 0) (0, 1)) as [r' s'|e s'| |s'] eqn:Q; [vm_compute in Q; discriminate Q| |vm_compute in Q; discriminate Q..].
    destruct (le_parseFrom conf 50 (n + 50) (bad, 0) (0, 1) ltac:(lia)) as [(s2 & Y)|Y]; congruence.
  Qed.
End Example1.

Print Assumptions description_accepts_exactly_partial.
Print Assumptions description_tables_checked.
