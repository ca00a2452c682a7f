(** From the text of a description to parses (C58): trees are those of the records of the description. *)
From Coq Require Import String ZArith List Bool Lia Permutation.
From Verif Require Import Base BaseProofs Grammar RulesSpec Parser ParserSpec ParserSafeSpec ParserFlowSpec ParserFuel LangBuild LangSpec LangComplete LangRecursion Prop_LangNodes LangNodes LangNodesSpec LangNodesProofs LangFirst LangTypes LangTypesSpec LangCompile LangTables LangDrop LangTreeSpec TablesSpec Prop_LangStates Prop_LangTables Prop_LangGrammar
  Prop_LangCompile LangString LangStringSpec LangText LangTextSpec LangTextFuel LangTextTotal Prop_LangText LangDescSpec LangDescFacts LangDescUnique Prop_LangDesc PredictSpec PredictTree Prop_Predict PredictCheck Prop_LangPredict ParserDemo LangDescAll DescTreeSpec DescTree DescTokens.
Import ListNotations.
Open Scope Z_scope.

Lemma derives_node st :
  (forall d w, derives st d w -> forall j u, In (SNode j u) w -> mentions d j) /\
  (forall l w, derivesSeq st l w -> forall j u, In (SNode j u) w -> exists d, In d l /\ mentions d j).
Proof.
  apply derives_both.
  - intros t j u [X|[]]. discriminate.
  - intros j u [X|[]]. discriminate.
  - intros i t S j u [X|[]]. injection X as <- <-. constructor.
  - intros l d w I0 _ IH j u X. econstructor; [exact I0|eapply IH, X].
  - intros opt rep l w _ IH j u X. destruct (IH j u X) as (d & I0 & M). econstructor; eassumption.
  - intros rep l j u [].
  - intros opt l w v _ IH _ IH' j u X. apply in_app_iff in X. destruct X as [X|X]; [|eapply IH', X]. destruct (IH j u X) as (d & I0 & M). econstructor; eassumption.
  - intros j u [].
  - intros d l w v _ IH _ IH' j u X. apply in_app_iff in X. destruct X as [X|X]; [exists d; split; [left; reflexivity|eapply IH, X]|]. destruct (IH' j u X) as (d' & I0 & M). exists d'. split; [right; exact I0|exact M].
Qed.
Lemma oneOf_token rs i k : mentionsToken (oneOf (map (chunkOf rs) i)) k -> exists v, In v i /\ mentionsToken (chunkOf rs v) k.
Proof.
  destruct i as [|v [|v' i]]; cbn [map oneOf]; intros M.
  - inversion M as [|? ? ? I0 _|]; subst. destruct I0.
  - exists v. split; [left; reflexivity|exact M].
  - inversion M as [|? d ? I0 M'|]; subst. change (In d (map (chunkOf rs) (v :: v' :: i))) in I0. apply in_map_iff in I0. destruct I0 as (x & <- & I0). eauto.
Qed.
(** tokens of definitions are types and literals of the records *)
Lemma chunk_token rs : forall n v k, (size v < n)%nat -> mentionsToken (chunkOf rs v) k ->
  (exists x, In x (typesUsed v) /\ k = position x (typeNames rs)) \/ (exists s, In s (literalsIn v) /\ k = zlen (typeNames rs) + position s (literals rs)).
Proof.
  induction n as [|n IH]; intros v k L M; [lia|]. destruct v as [x|x| |s|b l]; cbn [chunkOf] in M.
  - inversion M.
  - inversion M; subst. left. exists x. split; [left; reflexivity|reflexivity].
  - inversion M.
  - inversion M; subst. right. exists s. split; [left; reflexivity|reflexivity].
  - inversion M as [| |? ? ? d ? I0 M']; subst. apply in_map_iff in I0. destruct I0 as (i & <- & I0). apply oneOf_token in M'. destruct M' as (v & I1 & M').
    assert (SZ : (size v < n)%nat). { cbn [size] in L. pose proof (sum_in (fun i => S (list_sum (map size i))) l i I0) as A. pose proof (sum_in size i v I1) as B. cbv beta in A. lia. }
    destruct (IH v k SZ M') as [(x & IX & ->)|(x & IX & ->)]; [left|right]; exists x; (split; [|reflexivity]); cbn [typesUsed literalsIn]; (eapply flat_in; [exact I0|]); eapply flat_in; eassumption.
Qed.
Lemma definition_token rs l k : mentionsToken (definitionOf rs l) k ->
  (exists x, In x (seqTypes l) /\ k = position x (typeNames rs)) \/ (exists s, In s (seqLiterals l) /\ k = zlen (typeNames rs) + position s (literals rs)).
Proof. intros M. exact (chunk_token rs _ (VList Round l) k (Nat.lt_succ_diag_r _) M). Qed.
Lemma root_first rs root tl : nodesDefined rs = root :: tl -> position root (nodeNames rs) = 0.
Proof.
  intros H. assert (X : exists m, flat (fun r => match r with RNode n l => n :: seqNodes l | _ => [] end) rs = root :: m).
  { unfold nodesDefined, flat in *. revert H. induction rs as [|r l IH]; intros H; [discriminate|]. cbn [map concat] in *. destruct r; cbn [app] in *; try (apply IH, H). injection H as -> _. eexists. reflexivity. }
  destruct X as (m & X). unfold nodeNames. rewrite X. cbn [firsts position]. rewrite nameEqb_refl. reflexivity.
Qed.

Section C.
Context {Tok Src W E Inst R : Type}.
Variable c : config Tok Src W E Inst R.
Notation g := (cGrammar c).
Variable compiles : name -> bool.
Variable fullMatch : name -> name -> bool.
Variable orders : nat -> list Z * list Z * list Z.
Hypothesis anyOrders : forall n, let '(o1, o2, o3) := orders n in Permutation o1 (indexes n) /\ Permutation o2 (indexes n) /\ Permutation o3 (indexes n).
Variable fuel : nat.
Variable input : list tok.
Variable end_ : tail.
Variable rs : list record.
(** the grammar of the parser is that of the text; the text stands for the records [rs] *)
Record describedBy : Prop := mkDescribedBy {
  db_readable : readable input;
  db_plain : plainArguments input;
  db_grammar : parseText compiles fullMatch (cUpper c) fuel orders input end_ = AGrammar g;
  db_spells : spells input rs
}.
(** Parts in braces and brackets are such that the construction of states is right (see C18, C19, C20); [$] is only at the end of a node
    that no node mentions. *)
Record wellFormed : Prop := mkWellFormed {
  wf_defs : forall d, In d (defsOf rs) -> loopsApart d = true /\ skipsApart d false = true /\ eoiLast d true = true;
  wf_end : forall d i d', In d (defsOf rs) -> mentions d i -> zget (defsOf rs) i = Some d' -> endless d' = true
}.
Notation treeOf := (treeOf (cType c) (cText c) (cUpper c) rs).
Notation plainToken := (plainToken (cType c) rs).
Notation defs := (map Some (defsOf rs)).
Hypothesis D : describedBy.

Lemma understood : exists res, valid compiles rs res /\ gTokens g = tokensNow rs res /\ readWell (tokensNow rs res) (nodeNames rs) defs /\
  (let '(o1, o2, o3) := orders (length (nodeNames rs)) in compileDescription fullMatch (cUpper c) fuel o1 o2 o3 (tokensNow rs res) (layersOf rs) (nodeNames rs) defs = Compiled g) /\
  (forall n, In n (nodeNames rs) -> definition rs n <> None) /\ length defs = length (nodeNames rs) /\ allBegin defs /\
  exists firsts, (forall i t, 0 <= i < zlen defs -> (In t (firstsOf firsts i) <-> firstToken defs i t)) /\ compiled (tokensNow rs res) (layersOf rs) (nodeNames rs) firsts (defsOf rs) g.
Proof.
  destruct D as [RD P PT SP]. unfold parseText in PT. destruct (readDescription compiles fuel (newContext input end_)) as [[] x|e x| |] eqn:RE; try discriminate. destruct (read_says compiles fuel input end_ x RD P RE) as (NW & rs' & SP' & KP & res & V & C0). rewrite (description_unique _ _ _ (proj1 RD) SP' SP) in *. clear rs' SP'.
  assert (PC : parseText compiles fullMatch (cUpper c) fuel orders input end_ = AGrammar g) by apply D. rewrite (parse_collected compiles fullMatch (cUpper c) orders _ _ _ _ _ _ RE C0) in PC.
  assert (RW : readWell (tokensNow rs res) (nodeNames rs) (map (definition rs) (nodeNames rs))).
  { destruct C0 as (C1 & _ & C3 & C4). rewrite <- C1, <- C4, <- C3. eapply read_descriptions_well; [exact (proj1 RD)| |exact RE]. destruct end_; [apply (spelled_ends _ _ SP)| |contradiction]. destruct (spelled_ends _ _ SP) as [Y|Y]; [discriminate|]. right. exact Y. }
  clear PT. exists res. split; [exact V|]. pose proof (anyOrders (length (nodeNames rs))) as AO. destruct (orders (length (nodeNames rs))) as ((o1, o2), o3). destruct AO as (P1 & P2 & P3). destruct (compileDescription fullMatch (cUpper c) fuel o1 o2 o3 _ _ _ _) as [g'| | | |] eqn:CD; try discriminate. injection PC as ->.
  rewrite <- (map_length (definition rs)) in P1, P2, P3. destruct (compile_any fullMatch (cUpper c) _ _ _ _ o1 o2 o3 RW P1 P2 P3 _ _ CD) as (AD & _ & AB & (cs & firsts & CS & _ & FX & C1 & _) & _).
  assert (ALL : forall n, In n (nodeNames rs) -> definition rs n <> None). { intros n I0 N. assert (I1 : In (definition rs n) (map Some cs)) by (rewrite CS; apply in_map, I0). rewrite N in I1. apply in_map_iff in I1. destruct I1 as (? & ? & _). discriminate. }
  pose proof (defs_are rs ALL) as DA. assert (cs = defsOf rs) as ->. { rewrite <- CS in DA. clear - DA. revert DA. generalize (defsOf rs). induction cs as [|x l IH]; intros [|y m] H; try discriminate; [reflexivity|]. injection H as -> H. f_equal. apply IH, H. }
  rewrite DA. split; [destruct (compiled_rules _ _ _ _ _ _ ltac:(intros d I0; apply In_zget in I0; destruct I0 as (i & GI); apply (ds_written _ (rw_described _ _ _ RW) i d); unfold LangNodesSpec.defined; rewrite <- CS, zget_map, GI; reflexivity) C1) as (_ & _ & _ & _ & _ & _ & _ & T & _); exact T|].
  split; [exact RW|]. split; [exact CD|]. split; [exact ALL|]. split; [apply map_length|]. split; [exact AB|]. exists firsts. split; [exact FX|exact C1].
Qed.
Lemma defs_in d : In d (defsOf rs) -> exists n l, In (RNode n l) rs /\ d = definitionOf rs l.
Proof.
  unfold defsOf, flat. intros I0. apply in_concat in I0. destruct I0 as (m & I0 & I1). apply in_map_iff in I0. destruct I0 as (n & <- & _). destruct (definition rs n) as [d'|] eqn:F; [|destruct I1]. destruct I1 as [<-|[]]. destruct (definition_in rs n d' F) as (l & IL & ->). eauto.
Qed.
Lemma zlen_defs : zlen defs = zlen (defsOf rs). Proof. unfold zlen. rewrite map_length. reflexivity. Qed.
Lemma def_defined i d : LangNodesSpec.defined defs i d <-> zget (defsOf rs) i = Some d.
Proof. unfold LangNodesSpec.defined. rewrite zget_map. destruct (zget (defsOf rs) i); cbn; split; congruence. Qed.
Section WF.
Hypothesis WF : wellFormed.
Lemma no_end_first res firsts : readWell (tokensNow rs res) (nodeNames rs) defs -> (forall i t, 0 <= i < zlen defs -> (In t (firstsOf firsts i) <-> firstToken defs i t)) -> allBegin defs -> plain firsts (defsOf rs).
Proof.
  intros RW FX AB. split.
  - intros d I0. split; [destruct (defs_in d I0) as (n & l & _ & ->); eexists; reflexivity|]. apply In_zget in I0. destruct I0 as (i & GI). apply (ds_written _ (rw_described _ _ _ RW) i d). apply def_defined, GI.
  - intros d I0. apply (wf_defs WF d I0).
  - intros d I0. apply (wf_defs WF d I0).
  - intros d I0. apply (wf_defs WF d I0).
  - intros d i I0 M. assert (RG : 0 <= i < zlen defs). { pose proof I0 as I1. apply In_zget in I1. destruct I1 as (j & GJ). apply (ds_refers _ (rw_described _ _ _ RW) j i). exists d. split; [apply def_defined, GJ|exact M]. } split.
    + destruct (AB i RG) as (t & T). apply (FX i t RG) in T. intros X. rewrite X in T. exact T.
    + intros t T. apply (FX i t RG) in T. revert d I0 M. clear RG. induction T as [i d0 t w G S|i d0 w G S|i d0 j u w t G S F IH]; intros d I0 M.
      * eapply (rw_tokens _ _ _ RW); [exact G|]. eapply (proj1 (Prop_LangCompile.derives_tokens _)); [exact S|left; reflexivity].
      * exfalso. pose proof (wf_end WF d i d0 I0 M (proj1 (def_defined _ _) G)) as EN. exact (proj1 (derives_endless _) _ _ S EN (or_introl eq_refl)).
      * apply (IH d0); [eapply zget_In, def_defined, G|]. eapply (proj1 (derives_node _)); [exact S|left; reflexivity].
Qed.

(** *** C58 *)
(** Trees by the tables of the grammar are exactly the trees by the records of the description. *)
Theorem description_trees_partial n (T : tree Tok Inst R) : (forall t, In t (ParserSpec.leaves T) -> plainToken t) ->
  derived (cType c) (cText c) (cUpper c) g (position n (nodeNames rs)) T <-> treeOf n T.
Proof.
  intros PT. destruct understood as (res & V & GT & RW & _ & ALL & _ & AB & firsts & FX & C1). rewrite (grammar_trees_exactly_partial _ _ _ _ _ _ _ _ _ (no_end_first res firsts RW FX AB) C1).
  rewrite <- (trees_same _ _ rs ALL (vd_nodes _ _ _ V)). apply (treeOf_same (cType c) (cText c) (cUpper c) g rs res GT (res_names _ _ _ _ (vd_regexps _ _ _ V)) (vd_types _ _ _ V)); [|exact PT]. intros m l x I0 I1. apply (vd_used _ _ _ V m l x I0 I1).
Qed.
(** The tree a successful parse reports is a tree of the root of the description: the node defined first. *)
Theorem description_parse_tree_partial root tl pfuel w t0 r s : nodesDefined rs = root :: tl ->
  parseFrom c pfuel w t0 = Done r s -> pLost s = false -> (forall t, In t (somes (nexts (rev (pLog s)))) -> plainToken t) ->
  exists T unused, treeOf root T /\ nodeEvents (rev (pLog s)) = trace (hookedIn (cNodeHooks c)) [] T /\
    somes (nexts (rev (pLog s))) = ParserSpec.leaves T ++ unused /\ (length unused <= 1)%nat.
Proof.
  intros RT H L PT. destruct understood as (res & V & GT & RW & _ & ALL & _ & AB & firsts & FX & C1). pose proof (no_end_first res firsts RW FX AB) as PL.
  destruct (parse_trees_conform_partial c _ _ _ _ _ pfuel w t0 r s C1 PL) as (T & unused & CF & NE & NX & LU); [|exact H|exact L|].
  { intros d i I0 M. rewrite <- zlen_defs. apply In_zget in I0. destruct I0 as (j & GJ). apply (ds_refers _ (rw_described _ _ _ RW) j i). exists d. split; [apply def_defined, GJ|exact M]. }
  exists T, unused. split; [|auto]. apply description_trees_partial; [intros t I0; apply PT; rewrite NX; apply in_or_app; left; exact I0|]. rewrite (root_first _ _ _ RT). apply (grammar_trees_exactly_partial _ _ _ _ _ _ _ _ _ PL C1). exact CF.
Qed.

(** Tokens of lexers are of the (first 64) types of the description that are defined, or ends of files and of the input; the regular expression of the type of a
    token that is a literal matches the literal; side tokens are not literals that are used. *)
Variable lexed : Tok -> Prop.
Notation typeOf := (typeOf (cType c) rs).
Notation literalOf := (literalOf (cType c) (cText c) (cUpper c) rs).
Record lexersFor : Prop := mkLexersFor {
  lf_type : forall t, lexed t -> cType c t = EofTokenType \/ cType c t = EoiTokenType \/ exists n, typeOf t n /\ cType c t < 64 /\ forall res, valid compiles rs res -> exists re, In (n, re) res /\ re <> [];
  lf_literal : forall t n s res, lexed t -> typeOf t n -> literalOf t s -> valid compiles rs res -> exists re, In (n, re) res /\ fullMatch re s = true;
  lf_side : forall t s, lexed t -> literalOf t s -> In s (usedLiterals rs) -> ~ sideOf (cType c) rs t;
  lf_upper : forall s, cUpper c (cUpper c s) = cUpper c s
}.
Hypothesis LF : lexersFor.
Lemma lexed_plain t : lexed t -> plainToken t.
Proof.
  intros L. unfold DescTreeSpec.plainToken. pose proof (zlen_nonneg (typeNames rs)). destruct (lf_type LF t L) as [X|[X|(n & X & _)]]; [rewrite X; unfold EofTokenType, Lexer.EofTokenType; lia|rewrite X; unfold EoiTokenType, Lexer.EoiTokenType; lia|]. apply zget_Some_inv in X. lia.
Qed.
Lemma re_of res i d n re : gTokens g = tokensNow rs res -> map fst res = LangDescSpec.defined rs -> NoDup (LangDescSpec.defined rs) -> zget (typeNames rs) i = Some n -> zget (gTokens g) i = Some d -> In (n, re) res -> gtRe d = re.
Proof.
  intros GT ER ND TN G I0. assert (LT : i < zlen (typeNames rs)) by (apply zget_Some_inv in TN; lia). pose proof (zget_Some_inv _ _ _ G) as RG. rewrite GT in G. unfold tokensNow in G. rewrite map_app, <- app_assoc in G.
  pose proof I0 as I1. apply In_zget in I1. destruct I1 as (j & GJ). assert (TJ : zget (typeNames rs) j = Some n). { pose proof (zget_Some_inv _ _ _ GJ) as RJ. unfold typeNames. rewrite <- ER. rewrite LangTypesProofs.zget_app_l by (unfold zlen in *; rewrite map_length; lia). rewrite zget_map, GJ. reflexivity. }
  assert (i = j) as -> by (rewrite (zget_position _ _ _ (typeNames_NoDup _ ND) TN), (zget_position _ _ _ (typeNames_NoDup _ ND) TJ); reflexivity). pose proof (zget_Some_inv _ _ _ GJ) as RJ. rewrite LangTypesProofs.zget_app_l in G by (unfold zlen in *; rewrite map_length; lia). rewrite zget_map, GJ in G. injection G as <-. reflexivity.
Qed.
Lemma lexers_of res : valid compiles rs res -> gTokens g = tokensNow rs res -> lexers c fullMatch (tokensNow rs res) lexed.
Proof.
  intros V GT. pose proof (res_names _ _ _ _ (vd_regexps _ _ _ V)) as ER. constructor; [|apply (lf_upper LF)]. intros t L. destruct (lf_type LF t L) as [X|[X|(n & TN & L6 & RX)]]; [auto|auto|]. right. right. destruct (type_get g rs res GT ER _ _ TN) as (d & GD & NM & FL). exists d. rewrite <- GT. split; [exact GD|]. split; [exact L6|]. split; [destruct (RX res V) as (re & IR & NR); rewrite (re_of res _ d n re GT ER (vd_types _ _ _ V) TN GD IR); exact NR|]. split; [rewrite FL; apply flags_literal|].
  intros lt IL (_ & LL) LN NL. apply In_zget in IL. destruct IL as (k & GL). destruct (literal_get g rs res GT ER _ _ GL LL) as (_ & IL & _). assert (LO : literalOf t (gtName lt)). { exists n. split; [exact TN|]. split; [apply (proj1 (flags_noLiterals rs n)); rewrite <- FL; exact NL|]. split; [|exact IL]. rewrite LN. unfold textOf, matchText. rewrite FL, flags_caseless. reflexivity. }
  destruct (lf_literal LF t n _ res L TN LO V) as (re & IR & FM). rewrite (re_of res _ d n re GT ER (vd_types _ _ _ V) TN GD IR). exact FM.
Qed.
Hypothesis endlessDefs : forall d, In d (defsOf rs) -> endless d = true.
Hypothesis solidDefs : neverEmpty defs.
Lemma sound_of res : valid compiles rs res -> gTokens g = tokensNow rs res -> sound c (defsOf rs) lexed.
Proof.
  intros V GT. pose proof (res_names _ _ _ _ (vd_regexps _ _ _ V)) as ER. constructor; [|exact solidDefs|].
  - intros d I0. split; [destruct (defs_in d I0) as (n & l & _ & ->); eexists; reflexivity|]. split; [apply (wf_defs WF d I0)|]. split; [apply (wf_defs WF d I0)|apply endlessDefs, I0].
  - intros d k t I0 M L TM. pose proof (lexed_plain t L) as PT. destruct (defs_in d I0) as (n & l & IN & ->). apply definition_token in M.
    assert (X : exists m, typeOf t m /\ listed DSide m rs = false).
    { destruct M as [(x & IX & ->)|(s & IX & ->)].
      - destruct (vd_used _ _ _ V n l x IN IX) as (TX & SD & _). apply (type_same (cType c) (cText c) (cUpper c) g rs res GT ER (vd_types _ _ _ V) t x PT TX) in TM. exists x. split; [apply TM|exact SD].
      - assert (U : In s (usedLiterals rs)) by (unfold usedLiterals; eapply flat_in; [exact IN|exact IX]). assert (IL : In s (literals rs)) by (apply firsts_In, in_or_app; right; exact U). apply (lit_same (cType c) (cText c) (cUpper c) g rs res GT ER t s PT IL) in TM. pose proof TM as (m & TN & _). exists m. split; [exact TN|].
        destruct (listed DSide m rs) eqn:SD; [|reflexivity]. destruct (lf_side LF t s L TM U). exists m. auto. }
    destruct X as (m & TN & SD). destruct (type_get g rs res GT ER _ _ TN) as (d & GD & _ & FL). unfold core, sideToken. rewrite GD, FL, flags_side, SD. apply zget_Some_inv in TN. unfold EofTokenType, Lexer.EofTokenType. cbn [negb andb]. apply negb_true_iff. apply Z.eqb_neq. lia.
Qed.
(** Inputs accepted are exactly those that have a tree of the root, if the tables are LL(1) ones. *)
Theorem description_accepts_partial root tl (fair : Src -> Prop) (view : Src -> list Tok) eoi w t0 : nodesDefined rs = root :: tl ->
  predictive c lexed -> calmHooks c -> willing c lexed fair view eoi -> fair (fst w) -> unreadOf c view -> cFullSource c = true ->
  (forall t, In t (view (fst w)) -> cType c t <> EoiTokenType) ->
  (exists n, forall pfuel, (n <= pfuel)%nat -> exists r s, parseFrom c pfuel w t0 = Done r s) <->
  (exists T : tree Tok Inst R, treeOf root T /\ (forall t, In t (ParserSpec.leaves T) -> lexed t) /\
     filter (core c) (ParserSpec.leaves T) = filter (core c) (view (fst w))).
Proof.
  intros RT PR CH WI FA UR FS NE. destruct understood as (res & V & GT & RW & CD & ALL & LD & AB & firsts & FX & C1). pose proof (anyOrders (length (nodeNames rs))) as AO. destruct (orders (length (nodeNames rs))) as ((o1, o2), o3). destruct AO as (P1 & P2 & P3). rewrite <- LD in P1, P2, P3.
  rewrite (description_accepts_exactly_partial c fullMatch _ _ _ _ o1 o2 o3 lexed RW P1 P2 P3 (lexers_of res V GT) (sound_of res V GT) fair view eoi w t0 _ CD PR CH WI FA UR FS NE).
  split; intros (T & X & LX & EQ); exists T; (split; [|auto]).
  - apply description_trees_partial; [intros t I0; apply lexed_plain, LX, I0|]. rewrite (root_first _ _ _ RT). apply (grammar_trees_exactly_partial _ _ _ _ _ _ _ _ _ (no_end_first res firsts RW FX AB) C1). exact X.
  - apply (grammar_trees_exactly_partial _ _ _ _ _ _ _ _ _ (no_end_first res firsts RW FX AB) C1). pose proof (root_first _ _ _ RT) as RF. change RootNode with 0. rewrite <- RF. apply description_trees_partial; [intros t I0; apply lexed_plain, LX, I0|exact X].
Qed.
(** The LL(1) condition may be checked by a computation. *)
Theorem description_tables_ll1 res fuel' : valid compiles rs res -> predictiveB g (conflictOf fullMatch (tokensNow rs res)) fuel' = true -> predictive c lexed.
Proof.
  intros V H. destruct understood as (res' & V' & GT & RW & CD & ALL & LD & AB & firsts & FX & C1). rewrite (valid_unique compiles rs res res' V V') in *. pose proof (anyOrders (length (nodeNames rs))) as AO. destruct (orders (length (nodeNames rs))) as ((o1, o2), o3). destruct AO as (P1 & P2 & P3). rewrite <- LD in P1, P2, P3.
  eapply (description_tables_checked c fullMatch _ _ _ _ o1 o2 o3 lexed RW P1 P2 P3); [apply (lexers_of res' V' GT)|exact CD|exact H].
Qed.
End WF.
End C.

(** !side $space; $space = /.../; $name = /.../; $op = /.../; root = item, {'+', item}; item = $name;
    (a token is a type and the code of a character; regular expressions stand for spaces, letters, plus and minus signs) *)
Module Example3.
  Import Prop_LangPredict.Example1.
  Definition b := bytes.
  Definition rs : list record :=
    [RDirective DSide [AType (b "space")]; RType (b "space") [PRegexp [1]]; RType (b "name") [PRegexp [2]]; RType (b "op") [PRegexp [3]];
     RNode (b "root") [[VNode (b "item")]; [VList Curly [[VLiteral (b "+")]; [VNode (b "item")]]]]; RNode (b "item") [[VType (b "name")]]].
  Definition text := wAll rs.
  Definition compiles (_ : name) := true.
  Definition orders := Prop_LangText.Example1.orders.
  Definition g : grammar := Eval vm_compute in match parseText compiles fullMatch (fun x => x) 100 orders text TEnd with AGrammar g => g | _ => mkGrammar [] [] [] [] [] [] end.
  Definition conf : config dTok (list dTok) Z Z Z Z := let d := demo g [] true true in
    mkConfig fst (fun t => [snd t]) (fun x => x) dMethods g [Prop_ParserSafe.Example1.kLexer 3] (fun _ => None) [] (cNodeHooks d) (cCtx d) true true true (fun t src => t :: src).
  Lemma spelled : spells text rs. Proof. apply written_description; vm_compute; reflexivity. Qed.
  Lemma lexed_text : Forall LangTextSpec.lexed text. Proof. apply lexedb_ok. vm_compute. reflexivity. Qed.
  Example described_ok : describedBy conf compiles fullMatch orders 100 text TEnd rs.
  Proof.
    constructor.
    - split; [exact lexed_text|]. apply (records_strings _ string_kind _ _ (proj1 spelled)).
    - apply (records_plain _ string_kind _ _ (proj1 spelled)).
    - vm_compute. reflexivity.
    - exact spelled.
  Qed.
  Definition defs2 : list chunk := [CGroup false false [CNode 1; CGroup true true [CTok 3; CNode 1]]; CGroup false false [CTok 1]].
  Lemma defs_eq : defsOf rs = defs2. Proof. vm_compute. reflexivity. Qed.
  Example well_formed : wellFormed rs.
  Proof.
    split; rewrite defs_eq.
    - intros d [<-|[<-|[]]]; (split; [|split]; reflexivity).
    - intros d i d' _ _ G. apply zget_In in G. destruct G as [<-|[<-|[]]]; reflexivity.
  Qed.
  Definition names3 : list name := [b "space"; b "name"; b "op"].
  Lemma names_eq : typeNames rs = names3. Proof. vm_compute. reflexivity. Qed.
  Lemma literals_eq : literals rs = [b "+"]. Proof. vm_compute. reflexivity. Qed.
  Lemma res_eq res : valid compiles rs res -> res = [(b "space", [1]); (b "name", [2]); (b "op", [3])].
  Proof. intros V. pose proof (vd_regexps _ _ _ V) as X. vm_compute in X. injection X as <-. reflexivity. Qed.
  (* tokens with the text "+" are operators *)
  Lemma plus_op t n s : lexed t -> typeOf (cType conf) rs t n -> literalOf (cType conf) (cText conf) (cUpper conf) rs t s -> s = b "+" /\ n = b "op".
  Proof.
    intros L TN (n' & TN' & _ & TX & IL). unfold typeOf in *. rewrite TN in TN'. injection TN' as <-. rewrite literals_eq in IL. destruct IL as [<-|[]]. split; [reflexivity|]. rewrite names_eq in TN.
    assert (X : snd t = 43). { unfold textOf in TX. assert (Y : [snd t] = b "+") by (destruct (listed DCaseless n rs); exact TX). change (b "+") with [43] in Y. injection Y as Y. exact Y. }
    change (cType conf t) with (fst t) in TN. destruct L as [T|T]; [|subst t; vm_compute in TN; discriminate]. apply token_cases in T. destruct T as [->|[(A & B)|[->| ->]]]; try discriminate X; [lia|]. vm_compute in TN. injection TN as <-. reflexivity.
  Qed.
  Example lexers_for : lexersFor conf compiles fullMatch rs lexed.
  Proof.
    constructor.
    - intros t [T|T]; [|subst; right; left; reflexivity]. right. right. apply token_cases in T. unfold typeOf. rewrite names_eq. change (cType conf t) with (fst t). destruct T as [->|[(-> & B)|[->| ->]]]; (eexists; split; [reflexivity|]; split; [reflexivity|]; intros res V; rewrite (res_eq res V); eexists; split; [cbn; eauto|discriminate]).
    - intros t n s res L TN LO V. destruct (plus_op t n s L TN LO) as (-> & ->). rewrite (res_eq res V). exists [3]. split; [right; right; left; reflexivity|]. reflexivity.
    - intros t s L LO _ (n & TN & SD). destruct (plus_op t n s L TN LO) as (_ & ->). vm_compute in SD. discriminate SD.
    - reflexivity.
  Qed.
  Example endless_ok : forall d, In d (defsOf rs) -> endless d = true.
  Proof. rewrite defs_eq. intros d [<-|[<-|[]]]; reflexivity. Qed.
  Example solid_ok : neverEmpty (map Some (defsOf rs)).
  Proof. rewrite defs_eq. apply solid_neverEmpty. intros i d G. unfold LangNodesSpec.defined in G. apply zget_In in G. cbn in G. destruct G as [G|[G|[]]]; injection G as <-; reflexivity. Qed.
  Example is_valid : exists res, valid compiles rs res.
  Proof. destruct (understood conf compiles fullMatch orders Prop_LangText.Example1.any 100 text TEnd rs described_ok) as (res & V & _). eauto. Qed.
  Example tables_ok : predictive conf lexed.
  Proof.
    destruct is_valid as (res & V). pose proof (res_eq res V) as E. eapply (description_tables_ll1 conf compiles fullMatch orders Prop_LangText.Example1.any 100 text TEnd rs described_ok lexed lexers_for res 20 V). rewrite E. vm_compute. reflexivity.
  Qed.
  Example calm_ok : calmHooks conf.
  Proof.
    constructor.
    - constructor; try reflexivity. intros table h n t w [<-|[]] [X|X]; [injection X as <-; reflexivity|]. apply in_map_iff in X as (x & X & _). discriminate.
    - pose proof (demo_quiet g [] true true ltac:(intros ? ? ? [])) as []. constructor; assumption.
    - reflexivity.
    - intros table [<-|[]]. reflexivity.
  Qed.
  Lemma some_type : wanted conf AllTokenTypes EoiTokenType.
  Proof. exists 0. split; [reflexivity|]. split; [|reflexivity]. eexists. split; [reflexivity|discriminate]. Qed.
  Example willing_ok : willing conf lexed fair view dEoi.
  Proof.
    assert (BIT : forall x, 0 <= x < 64 -> Z.testbit AllTokenTypes x = true) by (intros x H; change AllTokenTypes with (Z.ones 64); apply Z.ones_spec_low; exact H).
    constructor.
    - split; [reflexivity|]. unfold fetchToken. split; intros types [|t src] src'; cbn [conf cLexers fetchLoop Prop_ParserSafe.Example1.kLexer].
      + intros x H. injection H as <- <-. auto.
      + intros x. destruct (_ && _); [destruct (Z.testbit types (fst t))|].
        * intros H. injection H as <- <-. auto.
        * discriminate.
        * discriminate.
      + discriminate.
      + destruct (_ && _); [destruct (Z.testbit types (fst t))|]; intros H; try discriminate H; apply (f_equal fst) in H; cbn in H; subst src'; reflexivity.
    - intros types [|t src] F; unfold fetchToken; cbn [conf cLexers fetchLoop Prop_ParserSafe.Example1.kLexer].
      + eexists _, _. split; [reflexivity|exact F].
      + pose proof (proj1 (F t (or_introl eq_refl))) as B. destruct (Z.leb_spec 0 (fst t)); [|lia]. destruct (Z.ltb_spec (fst t) 3); [|lia]. cbn [andb].
        destruct (Z.testbit types (fst t)) eqn:T.
        * eexists _, _. split; [reflexivity|]. intros x I. apply F. right. exact I.
        * destruct (Z.eqb_spec types AllTokenTypes) as [->|]; [rewrite BIT in T by lia; discriminate|]. eexists _, _. split; [reflexivity|exact F].
    - intros src t F I. left. apply F, I.
    - right. reflexivity.
    - intros t [(L & _)|L]; [left; change (cType conf t) with (fst t); split; [lia|]; assert (C : fst t = 0 \/ fst t = 1 \/ fst t = 2) by lia; destruct C as [->|[->| ->]]; (eexists; split; [reflexivity|discriminate])|]. right. right. rewrite L. reflexivity.
    - exact some_type.
    - intros types [|t src] src' F; unfold fetchToken; cbn [conf cLexers fetchLoop Prop_ParserSafe.Example1.kLexer]; [discriminate|].
      pose proof (proj1 (F t (or_introl eq_refl))) as B. destruct (Z.leb_spec 0 (fst t)); [|lia]. destruct (Z.ltb_spec (fst t) 3); [|lia]. cbn [andb].
      destruct (Z.testbit types (fst t)) eqn:T; [discriminate|]. intros _. cbn [view hd]. unfold wanted. change (cType conf t) with (fst t). destruct (Z.ltb_spec (fst t) 0); [lia|]. rewrite T. discriminate.
  Qed.
  Notation tree3 := (ParserSpec.tree dTok Z Z).
  Lemma exactly input : fair input ->
    (exists n, forall fuel, (n <= fuel)%nat -> exists r s, parseFrom conf fuel (input, 0) (0, 1) = Done r s) <->
    (exists T : tree3, treeOf fst (fun t => [snd t]) (fun x => x) rs (b "root") T /\ (forall t, In t (ParserSpec.leaves T) -> lexed t) /\
      filter (core conf) (ParserSpec.leaves T) = filter (core conf) input).
  Proof.
    intros F. apply (description_accepts_partial conf compiles fullMatch orders Prop_LangText.Example1.any 100 text TEnd rs described_ok well_formed lexed lexers_for endless_ok solid_ok (b "root") [b "item"] fair view dEoi (input, 0) (0, 1)).
    - reflexivity.
    - exact tables_ok.
    - exact calm_ok.
    - exact willing_ok.
    - exact F.
    - intros types src src' t _ _ _. reflexivity.
    - reflexivity.
    - intros t I. apply F in I. destruct I as (B & _). change (cType conf t) with (fst t). unfold EoiTokenType, Lexer.EoiTokenType. lia.
  Qed.
  (** "a +b" is accepted, "a-b" is not: so the former has a tree, the latter has none *)
  Example accepted : exists T : tree3, treeOf fst (fun t => [snd t]) (fun x => x) rs (b "root") T /\ (forall t, In t (ParserSpec.leaves T) -> lexed t) /\
      filter (core conf) (ParserSpec.leaves T) = filter (core conf) good.
  Proof.
    apply (exactly good good_ok). exists 50%nat. intros fuel L. destruct (parseFrom conf 50 (good, 0) (0, 1)) as [r s| | |] eqn:P; [|vm_compute in P; discriminate P..].
    destruct (le_parseFrom conf 50 fuel (good, 0) (0, 1) L) as [(s' & X)|X]; [congruence|]. exists r, s. congruence.
  Qed.
  Example rejected : ~ exists T : tree3, treeOf fst (fun t => [snd t]) (fun x => x) rs (b "root") T /\ (forall t, In t (ParserSpec.leaves T) -> lexed t) /\
      filter (core conf) (ParserSpec.leaves T) = filter (core conf) bad.
  Proof.
    intros H. apply (exactly bad bad_ok) in H. destruct H as (n & P). destruct (P (n + 50)%nat ltac:(lia)) as (r & s & X).
    destruct (parseFrom conf 50 (bad, 0) (0, 1)) as [r' s'|e s'| |s'] eqn:Q; [vm_compute in Q; discriminate Q| |vm_compute in Q; discriminate Q..].
    destruct (le_parseFrom conf 50 (n + 50) (bad, 0) (0, 1) ltac:(lia)) as [(s2 & Y)|Y]; congruence.
  Qed.
End Example3.

Print Assumptions description_trees_partial.
Print Assumptions description_parse_tree_partial.
Print Assumptions description_accepts_partial.
Print Assumptions description_tables_ll1.
