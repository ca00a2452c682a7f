(** From the text of a description and the text of a source to acceptance (C64): parsers made by langdef.ParseString and parser.New,
    with their lexers. *)
From Coq Require Import String ZArith List Bool Lia Permutation.
From Verif Require Import Base BaseProofs Utf8 Regexp Grammar Queue SourceQueue SourceQueueSpec Prop_SourceQueue Lexer LexerSpec LexerProofs ParserNew ParserNewSpec ParserNewProofs
  ParserRegexp ParserRegexpProofs Prop_ParserNew TextParser.
From Verif Require Import LangBuild LangSpec Parser ParserSpec ParserSafeSpec ParserFlowSpec Prop_Parser LangNodes LangNodesSpec LangFirst LangDrop LangCompile LangTypes Prop_LangGrammar Prop_LangCompile LangText LangTextSpec Prop_LangText LangDescSpec LangDescFacts LangDescUnique Prop_LangDesc PredictSpec Prop_Predict
  PredictCheck DescTreeSpec DescTree DescTokens Prop_DescTree DescLexer DescLexerSpec DescLexerProofs Prop_DescLexer TextParserSpec TextParserProofs.
Import ListNotations.
Open Scope Z_scope.

(** ** Tokens of a description without groups *)
Lemma no_groups rs n : typesIn (dirEqb DGroup) rs = [] -> LangDescSpec.groupNow n rs = 0.
Proof. intros E. apply groupNow_none. rewrite E. intros []. Qed.
Lemma token_re rs res i d : map fst res = LangDescSpec.defined rs -> zget (tokensNow rs res) i = Some d -> gtRe d <> [] ->
  exists n, zget (typeNames rs) i = Some n /\ gtName d = n /\ In (n, gtRe d) res /\ gtFlags d = flagsOf n rs /\ gtGroup d = LangDescSpec.groupNow n rs.
Proof.
  intros ER G RE. unfold tokensNow in G. rewrite map_app, <- app_assoc in G. unfold typeNames. rewrite <- ER. destruct (Z_lt_ge_dec i (zlen res)) as [L|L].
  - rewrite LangTypesProofs.zget_app_l in G by (unfold zlen in *; rewrite map_length; pose proof (zget_Some_inv _ _ _ G); lia). rewrite zget_map in G. destruct (zget res i) as [(n, re)|] eqn:X; [|discriminate]. injection G as <-. exists n.
    rewrite LangTypesProofs.zget_app_l by (unfold zlen in *; rewrite map_length; pose proof (zget_Some_inv _ _ _ X); unfold zlen in *; lia). rewrite zget_map, X. repeat split. eapply zget_In, X.
  - exfalso. apply RE. rewrite LangTypesProofs.zget_app_r in G by (unfold zlen in *; rewrite map_length; lia). apply zget_In in G. apply in_app_or in G as [G|G]; apply in_map_iff in G.
    + destruct G as (x & <- & G). apply in_map_iff in G. destruct G as (n & <- & _). reflexivity.
    + destruct G as (s & <- & _). reflexivity.
Qed.
Lemma maxGroup_zero ts : (forall d, In d ts -> gtGroup d = 0) -> maxGroup ts 0 = 0.
Proof. induction ts as [|t r IH]; intros H; [reflexivity|]. cbn [maxGroup]. rewrite (H t (or_introl eq_refl)). destruct (hasFlag _ _); apply IH; intros d I0; apply H; right; exact I0. Qed.
Lemma group_zero rs res : typesIn (dirEqb DGroup) rs = [] -> forall d, In d (tokensNow rs res) -> gtGroup d = 0.
Proof.
  intros E d I0. unfold tokensNow in I0. apply in_app_or in I0 as [I0|I0]; apply in_map_iff in I0.
  - destruct I0 as (x & <- & _). apply no_groups, E.
  - destruct I0 as (x & <- & _). reflexivity.
Qed.

(** ** Leaves of trees by records *)
Section L.
Context {Tok Inst R : Type} (isType isLiteral : Tok -> name -> Prop) (isEnd side : Tok -> Prop) (number : name -> Z) (rs : list record).
Definition leafOk (t : Tok) : Prop := (exists n, isType t n) \/ (exists s, isLiteral t s) \/ isEnd t \/ side t.
Definition leavesOk (l : list (tree Tok Inst R)) : Prop := forall T, In T l -> forall t, In t (ParserSpec.leaves T) -> leafOk t.
Lemma leavesOk_app l l' : leavesOk l -> leavesOk l' -> leavesOk (l ++ l').
Proof. intros A B T I0. apply in_app_or in I0 as [I0|I0]; [apply A|apply B]; exact I0. Qed.
Lemma tree_leaves n (T : tree Tok Inst R) : nTree isType isLiteral isEnd side number rs n T -> forall t, In t (ParserSpec.leaves T) -> leafOk t.
Proof.
  apply (nTree_mut _ _ _ isType isLiteral isEnd side number rs (fun _ l _ => leavesOk l) (fun _ l _ => leavesOk l) (fun _ l _ => leavesOk l) (fun _ T _ => forall t, In t (ParserSpec.leaves T) -> leafOk t)); try (intros; assumption).
  - intros m T0 _ IH T' [<-|[]]. exact IH.
  - intros m t TY T' [<-|[]] u [<-|[]]. left. eauto.
  - intros t TY T' [<-|[]] u [<-|[]]. right. right. left. exact TY.
  - intros m t TY T' [<-|[]] u [<-|[]]. right. left. eauto.
  - intros l T' [].
  - intros l T' [].
  - intros l a b _ IA _ IB. apply leavesOk_app; assumption.
  - intros T' [].
  - intros i l a b _ IA _ IB. apply leavesOk_app; assumption.
  - intros m l t0 hooks results kids core _ WS _ IH t I0. cbn [ParserSpec.leaves] in I0.
    induction WS as [|u kids core SD WS IW|T0 kids core WS IW]; cbn [ParserSpec.leaves] in I0.
    + destruct I0.
    + apply in_app_or in I0 as [I0|I0]; [|apply IW; auto]. destruct I0 as [<-|[]]. right. right. right. exact SD.
    + apply in_app_or in I0 as [I0|I0]; [apply (IH T0 (or_introl eq_refl) t I0)|]. apply IW; [|exact I0]. intros T' I1. apply IH. right. exact I1.
Qed.
End L.

(** ParseString makes a queue of one source. *)
Lemma string_queue {S} (content : S -> list Z) s : exists q, stringQueue content s = Some q /\ LexerProofs.qok content q [(s, 0)].
Proof.
  destruct (@Prop_Lexer.RB_new S content) as (q & E & ((A1 & A2 & A3) & B & _) & _). cbn [fst] in *. unfold stringQueue. rewrite E. cbn [obind]. unfold sqAppend, curEmpty. rewrite A1. rewrite andb_false_r. eexists. split; [reflexivity|].
  split; [split; [reflexivity|split; [reflexivity|exact A3]]|]. split; [|reflexivity].
  pose proof (append_OK (slen content) (sl_nonneg content) [] s B) as X. unfold a_append in X. destruct (has_text (slen content) (s, 0)); exact X.
Qed.
Theorem string_queue_made {S} (content : S -> list Z) s : exists src, stringQueue content s = Some (queueOf content src) /\ itemsOf content src = [(s, 0)].
Proof. destruct (string_queue content s) as (q & E & Q). exists (exist _ (q, [(s, 0)]) Q). auto. Qed.

Section M.
Context {S : Type} (content : S -> list Z) (same : S -> S -> bool).
Hypothesis sameOk : forall a b, same a b = true <-> a = b.
Context {W Err Inst R : Type} (wrap : lexError S -> Err).
(** regular expressions: see [trees_ok], [trees_cut] *)
Variable prefers : name -> list Z -> option Z.
Hypothesis PO : regexpsOk prefers.
Hypothesis PC : regexpsCut prefers.
Variable compiles : name -> bool.
Variable compilesAll : list name -> bool.
Variable orders : nat -> list Z * list Z * list Z.
Hypothesis anyOrders : forall n, let '(o1, o2, o3) := orders n in Permutation o1 (indexes n) /\ Permutation o2 (indexes n) /\ Permutation o3 (indexes n).
Variable c : config (token S) (queueState content) W Err Inst R.
Notation g := (cGrammar c).
(** The parser is made from the text of a description that is the records [rs]: langdef.ParseString gives the grammar, parser.New
    gives the lexers, and they are used for a queue of sources. *)
Record madeFrom (description : list Z) (fuel : nat) (rs : list record) (res : list (name * name)) (ls : list plexer) (SA : forall pl, In pl ls -> sane content pl) : Prop := mkMadeFrom {
  mf_spells : exists input, splits taken description input [] /\ spells input rs;
  mf_valid : valid compiles rs res;
  mf_grammar : parseBytes compiles (fullMatch prefers) (cUpper c) fuel orders description = AGrammar g;
  mf_lexers : newParser prefers compilesAll g = NewLexers ls;
  mf_over : overText content same wrap c ls SA
}.
(** What is demanded of the description (C58): see Prop_DescTree.v; and of its types of tokens. *)
Record goodFor (rs : list record) (res : list (name * name)) : Prop := mkGoodFor {
  gf_formed : wellFormed rs;
  gf_endless : forall d, In d (defsOf rs) -> endless d = true;
  gf_solid : neverEmpty (map Some (defsOf rs));
  gf_one : oneLexer rs res;
  gf_upper : upperTwice (cUpper c);
  gf_caseless : caselessOk prefers (cUpper c) rs res;
  gf_sides : sidesApart prefers (cUpper c) rs res
}.
Variable description : list Z.
Variable fuel : nat.
Variable rs : list record.
Variable res : list (name * name).
Variable ls : list plexer.
Variable SA : forall pl, In pl ls -> sane content pl.
Hypothesis MF : madeFrom description fuel rs res ls SA.
Hypothesis GF : goodFor rs res.
Notation tokens := (tokensNow rs res).
Notation ofLexer := (ofLexer prefers tokens).
Notation fm := (fullMatch prefers).

Lemma described : exists input, describedBy c compiles fm orders fuel input TEnd rs.
Proof.
  destruct MF as [(input & SP & SPL) V PB _ _]. exists input. rewrite (text_read _ _ _ _ _ _ _ _ SP) in PB. constructor; auto.
  - split; [eapply split_lexed, SP|]. apply (records_strings _ string_kind _ _ (proj1 SPL)).
  - apply (records_plain _ string_kind _ _ (proj1 SPL)).
Qed.
Lemma grammar_tokens : gTokens g = tokens /\ tablesOk g.
Proof.
  destruct described as (input & D). destruct (understood c compiles fm orders anyOrders fuel input TEnd rs D) as (res' & V' & GT & RW & CD & ALL & LD & AB & _).
  rewrite (valid_unique compiles rs res res' (mf_valid _ _ _ _ _ _ MF) V') in *. split; [exact GT|]. pose proof (anyOrders (length (nodeNames rs))) as AO. destruct (orders (length (nodeNames rs))) as ((o1, o2), o3). destruct AO as (P1 & P2 & P3). rewrite <- LD in P1, P2, P3.
  destruct (compile_any fm (cUpper c) _ _ _ _ o1 o2 o3 RW P1 P2 P3 _ _ CD) as (_ & _ & _ & (cs & firsts & _ & _ & _ & _ & TS) & _). apply sound_tablesOk, TS.
Qed.
Lemma names_of : map fst res = LangDescSpec.defined rs.
Proof. exact (res_names _ _ _ _ (vd_regexps _ _ _ (mf_valid _ _ _ _ _ _ MF))). Qed.
Lemma one_lexer : ls = [groupLexer prefers (gTokens g) 0].
Proof.
  destruct (newParser_lexers _ _ _ _ (mf_lexers _ _ _ _ _ _ MF)) as (L & H). destruct grammar_tokens as (GT & _). rewrite (maxGroup_zero (gTokens g)) in L by (rewrite GT; apply group_zero, (gf_one _ _ GF)).
  destruct ls as [|l [|l' r]]; unfold zlen in L; cbn [length] in L; try lia. f_equal. apply (H 0). reflexivity.
Qed.
Lemma found_type i piece : found prefers tokens i piece -> exists n d, zget (typeNames rs) i = Some n /\ zget tokens i = Some d /\ In (n, gtRe d) res /\ gtRe d <> [] /\ i < 64 /\ fm (gtRe d) piece = true.
Proof.
  intros (text & d & n & F & N & I64 & ->). destruct (ft_type _ _ _ _ _ _ _ F) as (G & RE & _). destruct (token_re rs res i d names_of G RE) as (nm & TN & _ & IR & _). exists nm, d. repeat (split; [assumption|]).
  pose proof (ft_match _ _ _ _ _ _ _ F) as M. pose proof (PO _ _ _ M) as RN. apply PC in M. unfold fullMatch. destruct (firstn (Z.to_nat n) text) as [|b r] eqn:E; [reflexivity|]. rewrite M, <- E. apply Z.eqb_eq. unfold zlen in *. rewrite firstn_length. lia.
Qed.
Lemma lexers_for : lexersFor c compiles fm rs ofLexer.
Proof.
  assert (CT : cType c = @tokType S) by apply (ot_type _ _ _ _ _ _ (mf_over _ _ _ _ _ _ MF)). assert (CX : cText c = @tokContent S) by apply (ot_text _ _ _ _ _ _ (mf_over _ _ _ _ _ _ MF)).
  assert (SPEC : forall t n, typeOf (cType c) rs t n -> tokType t <> EofTokenType /\ tokType t <> EoiTokenType).
  { intros t n T. unfold typeOf in T. rewrite CT in T. apply zget_Some_inv in T. unfold EofTokenType, EoiTokenType, Lexer.EofTokenType, Lexer.EoiTokenType. lia. }
  constructor.
  - intros t [F|[X|X]]; rewrite CT; [|left; exact X|right; left; exact X]. right. right. destruct (found_type _ _ F) as (n & d & TN & _ & IR & RE & L6 & _). exists n. unfold typeOf. split; [exact TN|]. split; [rewrite ?CT; exact L6|]. intros res' V'. rewrite (valid_unique compiles rs res' res V' (mf_valid _ _ _ _ _ _ MF)). eauto.
  - intros t n s res' L TN LO V'. rewrite (valid_unique compiles rs res' res V' (mf_valid _ _ _ _ _ _ MF)). destruct (SPEC t n TN) as (N1 & N2). destruct L as [F|[X|X]]; [|contradiction|contradiction]. destruct (found_type _ _ F) as (n' & d & TN' & _ & IR & RE & L6 & FM).
    unfold typeOf in TN. rewrite CT in TN. rewrite TN in TN'. injection TN' as <-. exists (gtRe d). split; [exact IR|]. destruct LO as (n' & TN' & _ & TX & IL). unfold typeOf in TN'. rewrite CT, TN in TN'. injection TN' as <-. unfold textOf in TX. rewrite CX in TX. destruct (listed DCaseless n rs) eqn:CL; [|rewrite <- TX; exact FM].
    rewrite <- TX in IL |- *. eapply (gf_caseless _ _ GF); eauto.
  - intros t s L LO IU (n & TN & SD). destruct (SPEC t n TN) as (N1 & N2). destruct L as [F|[X|X]]; [|contradiction|contradiction]. destruct LO as (n' & TN' & MB & TX & IL). unfold typeOf in TN, TN'. rewrite TN in TN'. injection TN' as <-. rewrite CT in TN.
    unfold textOf in TX. rewrite CX in TX. apply (gf_sides _ _ GF n (tokType t) (tokContent t) TN SD MB F). rewrite TX. exact IU.
  - exact (gf_upper _ _ GF).
Qed.
Lemma core_counts t : ofLexer t -> core c t = counts rs t.
Proof.
  assert (CT : cType c = @tokType S) by apply (ot_type _ _ _ _ _ _ (mf_over _ _ _ _ _ _ MF)). destruct grammar_tokens as (GT & _). intros L. unfold core, counts, sideToken. rewrite CT, GT. f_equal. f_equal. destruct L as [F|[X|X]].
  - destruct (found_type _ _ F) as (n & d & TN & G & _ & RE & _). rewrite G, TN. destruct (token_re rs res _ d names_of G RE) as (n' & TN' & _ & _ & FL & _). rewrite TN in TN'. injection TN' as <-. rewrite FL. apply flags_side.
  - rewrite X. reflexivity.
  - rewrite X. reflexivity.
Qed.
Lemma filter_counts l : (forall t, In t l -> ofLexer t) -> filter (core c) l = filter (counts rs) l.
Proof. induction l as [|t l IH]; intros H; [reflexivity|]. cbn [filter]. rewrite (core_counts t (H t (or_introl eq_refl))), IH; [reflexivity|]. intros u I0. apply H. right. exact I0. Qed.

(** A full-source parse is accepted exactly if the texts are split into tokens and there is a tree by the rules of the description that has these tokens. *)
Theorem queue_accepted_partial root tl src w t0 : nodesDefined rs = root :: tl -> predictive c ofLexer -> calmHooks c -> cFullSource c = true ->
  (exists n, forall pfuel, (n <= pfuel)%nat -> exists r s, parseFrom c pfuel (src, w) t0 = Done r s) <->
  (exists toks (T : tree (token S) Inst R), queueTokens content prefers tokens (itemsOf content src) toks /\
     treeOf (@tokType S) (@tokContent S) (cUpper c) rs root T /\ (forall t, In t (ParserSpec.leaves T) -> ofLexer t) /\
     filter (counts rs) (ParserSpec.leaves T) = filter (counts rs) toks).
Proof.
  intros RT PR CH FS. pose proof (mf_over _ _ _ _ _ _ MF) as OT. destruct grammar_tokens as (GT & TO). destruct described as (input & D). pose proof lexers_for as LF.
  assert (CT : cType c = @tokType S) by apply (ot_type _ _ _ _ _ _ OT). assert (CX : cText c = @tokContent S) by apply (ot_text _ _ _ _ _ _ OT).
  destruct (gf_one _ _ GF) as ((i0 & n0 & re0 & I0 & R0 & L0) & NG). pose proof one_lexer as OL. pose proof found_type as FT. pose proof filter_counts as FC. clear MF. revert SA OT. rewrite OL. intros SA1 OT. pose proof (items_range content src) as IR.
  assert (G0 : forall i d, zget (gTokens g) i = Some d -> gtRe d <> [] -> gtGroup d = 0) by (intros i d G _; rewrite GT in G; apply zget_In in G; exact (group_zero _ _ NG _ G)).
  assert (SOME : exists i d, zget (gTokens g) i = Some d /\ gtRe d <> [] /\ i < 64).
  { pose proof (zget_Some_inv _ _ _ I0) as RI. exists i0. rewrite GT. unfold tokensNow. rewrite map_app, <- app_assoc, LangTypesProofs.zget_app_l by (unfold zlen in *; rewrite map_length; lia). rewrite zget_map, I0. eexists. split; [reflexivity|]. auto. }
  assert (LX : @TextParserSpec.ofLexer S prefers (gTokens g) = ofLexer) by (rewrite GT; reflexivity).
  pose proof (willing_ok content same wrap prefers PO c SA1 OT G0 SOME) as WI. rewrite LX in WI.
  destruct (queue_splits content prefers PO (gTokens g) [mkToken Lexer.ErrorTokenType ""%string [] None 0] (itemsOf content src) IR) as [(toks & QT)|(before & VW)].
  - pose proof (queue_view content prefers PO (gTokens g) [] _ _ QT IR) as QV. pose proof (queue_no_eoi content prefers PO _ _ _ QT) as NE.
    assert (QL : forall t, In t toks -> ofLexer t) by (rewrite <- LX; exact (queue_ofLexer content prefers _ _ _ QT)).
    rewrite (description_accepts_partial c compiles fm orders anyOrders fuel input TEnd rs D (gf_formed _ _ GF) ofLexer LF (gf_endless _ _ GF) (gf_solid _ _ GF) root tl (fair content prefers c) _ eoiToken (src, w) t0 RT PR CH WI (ex_intro _ toks QT) (unread_ok content same sameOk wrap prefers PO c SA1 OT []) FS).
    2:{ cbn [fst]. rewrite QV, CT. exact NE. }
    cbn [fst]. rewrite QV, CT, CX. split.
    + intros (T & TT & LT & EQ). exists toks, T. split; [rewrite <- GT; exact QT|]. repeat (split; [assumption|]). rewrite <- (FC (ParserSpec.leaves T) LT), <- (FC toks QL). exact EQ.
    + intros (toks' & T & QT' & TT & LT & EQ). exists T. repeat (split; [assumption|]). rewrite <- GT in QT'. pose proof (queue_view content prefers PO (gTokens g) [] _ _ QT' IR) as QV'. rewrite QV in QV'. subst toks'. rewrite (FC (ParserSpec.leaves T) LT), (FC toks QL). exact EQ.
  - split.
    + intros (n & H). exfalso. destruct (H n (Nat.le_refl _)) as (r & s & P).
      destruct (full_source_is_the_tree c _ eoiToken n (src, w) t0 r s (source_ok content same wrap prefers PO c SA1 OT [mkToken Lexer.ErrorTokenType ""%string [] None 0]) (unread_ok content same sameOk wrap prefers PO c SA1 OT _) (ch_quiet _ CH) (ch_tokens _ CH) (pr_multi _ _ PR) FS) with (2 := P) as (T & tr & _ & V & SD & DV).
      { cbn [fst]. rewrite CT. apply (view_no_eoi content prefers PO); [exact IR|]. intros t [<-|[]]. discriminate. }
      specialize (DV TO). cbn [fst] in V.
      assert (LV : forall t, In t (ParserSpec.leaves T) -> tokType t = EoiTokenType \/ In t (viewOf content prefers (gTokens g) [mkToken Lexer.ErrorTokenType ""%string [] None 0] (itemsOf content src))).
      { intros t IT. destruct (Z.eq_dec (tokType t) EoiTokenType) as [X|X]; [auto|right]. assert (X1 : In t (filter (visible c) (viewOf content prefers (gTokens g) [mkToken Lexer.ErrorTokenType ""%string [] None 0] (itemsOf content src)))). { rewrite V. apply in_or_app. left. apply filter_In. split; [exact IT|]. rewrite CT. apply negb_true_iff, Z.eqb_neq, X. } apply filter_In in X1. apply X1. }
      assert (TT : treeOf (cType c) (cText c) (cUpper c) rs root T).
      { apply (description_trees_partial c compiles fm orders anyOrders fuel input TEnd rs D (gf_formed _ _ GF)); [|rewrite (root_first _ _ _ RT); exact DV]. intros t IT. destruct (LV t IT) as [X|X]; [unfold plainToken; rewrite CT, X; pose proof (zlen_nonneg (typeNames rs)); unfold EoiTokenType, Lexer.EoiTokenType; lia|].
        apply view_ofLexer in X as [[<-|[]]|X]; [unfold plainToken; rewrite CT; pose proof (zlen_nonneg (typeNames rs)); change (-4 < zlen (typeNames rs)); lia|]. rewrite LX in X. apply (lexed_plain c compiles fm rs ofLexer LF), X. }
      assert (IM : In (mkToken Lexer.ErrorTokenType ""%string [] None 0) (ParserSpec.leaves T)).
      { assert (X1 : In (mkToken Lexer.ErrorTokenType ""%string [] None 0) (filter (visible c) (viewOf content prefers (gTokens g) [mkToken Lexer.ErrorTokenType ""%string [] None 0] (itemsOf content src)))). { apply filter_In. split; [rewrite VW; apply in_or_app; right; left; reflexivity|]. unfold visible, sideToken. rewrite CT. apply orb_true_r. }
        rewrite V in X1. apply in_app_or in X1 as [X1|X1]; [apply filter_In in X1; apply X1|]. apply SD in X1. unfold sideToken in X1. rewrite CT in X1. discriminate. }
      assert (NO : forall n', ~ typeOf (cType c) rs (mkToken Lexer.ErrorTokenType ""%string [] (@None S) 0) n') by (intros n' X; unfold typeOf in X; rewrite CT in X; discriminate).
      destruct (tree_leaves _ _ _ _ _ _ _ _ TT _ IM) as [(n' & X)|[(s' & X)|[X|X]]].
      * destruct X as (X & _). exact (NO n' X).
      * destruct X as (n' & X & _). exact (NO n' X).
      * unfold endOf in X. rewrite CT in X. discriminate.
      * destruct X as (n' & X & _). exact (NO n' X).
    + intros (toks & T & QT & _). exfalso. rewrite <- GT in QT. pose proof (queue_view content prefers PO (gTokens g) [mkToken Lexer.ErrorTokenType ""%string [] None 0] _ _ QT IR) as QV. rewrite VW in QV.
      assert (X : ofLexer (mkToken Lexer.ErrorTokenType ""%string [] (@None S) 0)) by (rewrite <- LX; apply (queue_ofLexer content prefers _ _ _ QT); rewrite <- QV; apply in_or_app; right; left; reflexivity).
      destruct X as [X|[X|X]]; [|discriminate|discriminate]. destruct (FT _ _ X) as (n' & d & X' & _). discriminate X'.
Qed.
(** The LL(1) condition may be checked by a computation. *)
Theorem made_tables_ll1 n : predictiveB g (Prop_LangPredict.conflictOf fm tokens) n = true -> predictive c ofLexer.
Proof.
  intros H. destruct described as (input & D). exact (description_tables_ll1 c compiles fm orders anyOrders fuel input TEnd rs D ofLexer lexers_for res n (mf_valid _ _ _ _ _ _ MF) H).
Qed.
(** ParseString: the text is accepted exactly if it is split into tokens by the regular expressions of the description, and they, without
    side ones, are those of a tree by its rules. *)
Theorem string_accepted_partial root tl s src w t0 : nodesDefined rs = root :: tl -> predictive c ofLexer -> calmHooks c -> cFullSource c = true ->
  stringQueue content s = Some (queueOf content src) ->
  (exists n, forall pfuel, (n <= pfuel)%nat -> exists r s, parseFrom c pfuel (src, w) t0 = Done r s) <->
  (exists l (T : tree (token S) Inst R), splitInto prefers tokens 0 (content s) l /\
     treeOf (@tokType S) (@tokContent S) (cUpper c) rs root T /\ (forall t, In t (ParserSpec.leaves T) -> ofLexer t) /\
     filter (counts rs) (ParserSpec.leaves T) = filter (counts rs) (tokensAt tokens s 0 l)).
Proof.
  intros RT PR CH FS SQ. rewrite (queue_accepted_partial root tl src w t0 RT PR CH FS). destruct (string_queue content s) as (q & E & Q). rewrite SQ in E. injection E as <-.
  assert (IS : itemsOf content src = [(s, 0)]) by (apply (items_unique (queueOf content src)); [exact (proj1 (proj2_sig src))|exact (proj1 Q)]). rewrite IS.
  assert (EF : forall l, filter (counts rs) (tokensAt tokens s 0 l ++ [eofToken content s]) = filter (counts rs) (tokensAt tokens s 0 l)).
  { intros l. rewrite filter_app. cbn [filter]. unfold counts at 2. cbn [eofToken tokType]. rewrite Z.eqb_refl, andb_false_r, app_nil_r. reflexivity. }
  split.
  - intros (toks & T & QT & X & Y & EQ). inversion QT as [|? ? ? l ts SI QE]; subst. inversion QE; subst. exists l, T. split; [exact SI|]. rewrite EF in EQ. auto.
  - intros (l & T & SI & X & Y & EQ). exists (tokensAt tokens s 0 l ++ [eofToken content s]), T. split; [constructor; [exact SI|constructor]|]. rewrite EF. auto.
Qed.
End M.

(** !side $space; $space = /[ ]+/; $name = /[a-z]+/; $op = /[+-]/; root = item, {'+', item}; item = $name; *)
Module Example1.
  Definition b := bytes.
  Definition description : list Z := Eval vm_compute in b "!side $space; $space = /[ ]+/; $name = /[a-z]+/; $op = /[+-]/; root = item, {'+', item}; item = $name;".
  Definition spaces : name := Eval vm_compute in b "[ ]+".
  Definition letters : name := Eval vm_compute in b "[a-z]+".
  Definition signs : name := Eval vm_compute in b "[+-]".
  (** these regular expressions as trees (Regexp.v) *)
  Definition treeFor (re : name) : rx :=
    if nameEqb re spaces then RPlus (RRune 32) else if nameEqb re letters then RPlus (RClass (fun x => (97 <=? x) && (x <=? 122))) else RClass (Regexp.oneOf [43; 45]).
  Definition prefers (re : name) := treePrefers (treeFor re).
  Lemma cut : regexpsCut prefers. Proof. intros re text n. apply trees_cut. Qed.
  Definition rs : list record :=
    [RDirective DSide [AType (b "space")]; RType (b "space") [PRegexp spaces]; RType (b "name") [PRegexp letters]; RType (b "op") [PRegexp signs];
     RNode (b "root") [[VNode (b "item")]; [VList Curly [[VLiteral (b "+")]; [VNode (b "item")]]]]; RNode (b "item") [[VType (b "name")]]].
  Definition res : list (name * name) := [(b "space", spaces); (b "name", letters); (b "op", signs)].
  Definition orders := Prop_LangText.Example1.orders.
  Definition g : grammar := Eval vm_compute in match parseBytes (fun _ => true) (fullMatch prefers) (fun x => x) 100 orders description with AGrammar g => g | _ => mkGrammar [] [] [] [] [] [] end.
  Definition ls : list plexer := match newParser prefers (fun _ => true) g with NewLexers ls => ls | _ => [] end.
  Lemma made : newParser prefers (fun _ => true) g = NewLexers ls. Proof. reflexivity. Qed.
  Definition content (s : list Z) := s.
  Definition SA : forall pl, In pl ls -> sane content pl := lexers_sane content prefers (fun _ => true) g ls (trees_ok treeFor) made.
  Definition conf : config (token (list Z)) (queueState content) Z (lexError (list Z)) Z Z :=
    mkConfig (@tokType _) (@tokContent _) (fun x => x)
      (mkMethods (fun i n t w => (w, None)) (fun i n x w => (w, None)) (fun i t w => (w, None)) (fun i w => (w, (Some (10 + i), None))))
      g (lexersOf content (fun e => e) ls SA) (fun _ => None) [] [Some (fun node t w => (w, (Some node, None))) :: map (fun _ => None) (gNodes g)] (fun w => (w, None)) true true true (unreadToken content nameEqb).
  Example split_ok : exists input, splits taken description input [] /\ spells input rs.
  Proof. exists (wAll rs). split; [eapply split_computed; [vm_compute; reflexivity|vm_compute; reflexivity]|]. apply written_description; vm_compute; reflexivity. Qed.
  Example valid_ok : valid (fun _ => true) rs res.
  Proof.
    destruct split_ok as (input & SP & SPL). assert (E : parseBytes (fun _ => true) (fullMatch prefers) (fun x => x) 100 orders description = AGrammar g) by (vm_compute; reflexivity).
    destruct (text_accepted_partial (fun _ => true) (fullMatch prefers) (fun x => x) orders Prop_LangText.Example1.any 100 description input [] g SP) as (_ & rs' & S' & X); [apply (records_strings _ string_kind _ _ (proj1 SPL))|apply (records_plain _ string_kind _ _ (proj1 SPL))|exact E|].
    rewrite (description_unique _ _ _ (split_lexed _ _ _ SP) S' SPL) in X. destruct X as (res' & V & _); [apply distinct_ok; vm_compute; reflexivity|apply reserved_ok; vm_compute; reflexivity|].
    assert (res' = res) as <-; [|exact V]. pose proof (vd_regexps _ _ _ V) as R. vm_compute in R. injection R as <-. reflexivity.
  Qed.
  Example made_ok : madeFrom content nameEqb (fun e => e) prefers (fun _ => true) (fun _ => true) orders conf description 100 rs res ls SA.
  Proof.
    constructor.
    - exact split_ok.
    - exact valid_ok.
    - vm_compute. reflexivity.
    - exact made.
    - constructor; reflexivity.
  Qed.
  Definition defs2 : list chunk := [CGroup false false [CNode 1; CGroup true true [CTok 3; CNode 1]]; CGroup false false [CTok 1]].
  Lemma defs_eq : defsOf rs = defs2. Proof. vm_compute. reflexivity. Qed.
  Lemma names_eq : typeNames rs = [b "space"; b "name"; b "op"]. Proof. vm_compute. reflexivity. Qed.
  Lemma name_cases i n : zget (typeNames rs) i = Some n -> (i = 0 /\ n = b "space") \/ (i = 1 /\ n = b "name") \/ (i = 2 /\ n = b "op").
  Proof.
    rewrite names_eq. intros G. pose proof (zget_Some_inv _ _ _ G) as R. change (0 <= i < 3) in R. assert (C : i = 0 \/ i = 1 \/ i = 2) by lia. destruct C as [->|[->| ->]]; injection G as <-; auto.
  Qed.
  Example good_ok : goodFor content prefers conf rs res.
  Proof.
    constructor.
    - split; rewrite defs_eq.
      + intros d [<-|[<-|[]]]; (split; [|split]; reflexivity).
      + intros d i d' _ _ G. apply zget_In in G. destruct G as [<-|[<-|[]]]; reflexivity.
    - rewrite defs_eq. intros d [<-|[<-|[]]]; reflexivity.
    - rewrite defs_eq. apply LangRecursion.solid_neverEmpty. intros i d G. unfold LangNodesSpec.defined in G. apply zget_In in G. cbn in G. destruct G as [G|[G|[]]]; injection G as <-; reflexivity.
    - split; [|reflexivity]. exists 0, (b "space"), spaces. repeat split. discriminate.
    - intros s. reflexivity.
    - intros n re i piece G _ C. exfalso. apply name_cases in G. destruct G as [(_ & ->)|[(_ & ->)|(_ & ->)]]; discriminate C.
    - intros n i piece G C _ F L. apply name_cases in G. destruct G as [(-> & ->)|[(_ & ->)|(_ & ->)]]; [|discriminate C|discriminate C]. clear C.
      change (In piece (usedLiterals rs)) in L. assert (UL : usedLiterals rs = [b "+"]) by (vm_compute; reflexivity). rewrite UL in L. destruct L as [<-|[]].
      destruct F as (text & d & n & F & N & _ & EQ). destruct (ft_type _ _ _ _ _ _ _ F) as (G & _). injection G as <-. pose proof (ft_match _ _ _ _ _ _ _ F) as M. apply cut in M. rewrite <- EQ in M. discriminate M.
  Qed.
  Example ll1_ok : predictive conf (ofLexer prefers (tokensNow rs res)).
  Proof.
    apply (made_tables_ll1 content nameEqb (fun e => e) prefers (trees_ok treeFor) cut (fun _ => true) (fun _ => true) orders Prop_LangText.Example1.any conf description 100 rs res ls SA made_ok good_ok 20). vm_compute. reflexivity.
  Qed.
  Example calm_ok : calmHooks conf.
  Proof.
    constructor.
    - constructor; try reflexivity. intros table h n t w [<-|[]] [X|X]; [injection X as <-; reflexivity|]. apply in_map_iff in X as (x & X & _). discriminate.
    - constructor; try reflexivity; [|intros ? ? ? []]. intros table h n t w [<-|[]] [X|X]; [injection X as <-; reflexivity|]. apply in_map_iff in X as (x & X & _). discriminate.
    - reflexivity.
    - intros table [<-|[]]. reflexivity.
  Qed.
  Definition accepts (s : list Z) : Prop := exists src, stringQueue content s = Some (queueOf content src) /\
    exists n, forall fuel, (n <= fuel)%nat -> exists r p, parseFrom conf fuel (src, 0) eoiToken = Done r p.
  Definition meant (s : list Z) : Prop := exists l (T : tree (token (list Z)) Z Z), splitInto prefers (tokensNow rs res) 0 s l /\
     treeOf (@tokType _) (@tokContent _) (fun x => x) rs (b "root") T /\ (forall t, In t (ParserSpec.leaves T) -> ofLexer prefers (tokensNow rs res) t) /\
     filter (counts rs) (ParserSpec.leaves T) = filter (counts rs) (tokensAt (tokensNow rs res) s 0 l).
  Lemma exactly s src : stringQueue content s = Some (queueOf content src) ->
    (exists n, forall fuel, (n <= fuel)%nat -> exists r p, parseFrom conf fuel (src, 0) eoiToken = Done r p) <-> meant s.
  Proof.
    apply (string_accepted_partial content nameEqb LangTextTotal.nameEqb_ok (fun e => e) prefers (trees_ok treeFor) cut (fun _ => true) (fun _ => true) orders Prop_LangText.Example1.any conf description 100 rs res ls SA made_ok good_ok (b "root") [b "item"] s src 0 eoiToken).
    - vm_compute. reflexivity.
    - exact ll1_ok.
    - exact calm_ok.
    - reflexivity.
  Qed.
  (** parses, computed *)
  Lemma queue_ok s q : stringQueue content s = Some q -> LexerProofs.qok content q [(s, 0)].
  Proof. intros E. destruct (string_queue content s) as (q' & E' & Q). congruence. Qed.
  Definition startAt s q (E : stringQueue content s = Some q) : queueState content := exist _ (q, [(s, 0)]) (queue_ok s q E).
  Definition isDone {Tok Src W E Inst R A} (x : Parser.res Tok Src W E Inst R A) : bool := match x with Done _ _ => true | _ => false end.
  Definition isOver {Tok Src W E Inst R A} (x : Parser.res Tok Src W E Inst R A) : bool := match x with NoFuel _ => false | _ => true end.
  Lemma is_meant s q E n : isDone (parseFrom conf n (startAt s q E, 0) eoiToken) = true -> meant s.
  Proof.
    intros H. apply (exactly s (startAt s q E) E). exists n. intros fuel L. destruct (parseFrom conf n (startAt s q E, 0) eoiToken) as [r p| | |] eqn:P; try discriminate H.
    destruct (ParserFuel.le_parseFrom conf n fuel (startAt s q E, 0) eoiToken L) as [(s' & X)|X]; [congruence|]. exists r, p. congruence.
  Qed.
  Lemma not_meant s q E n : isDone (parseFrom conf n (startAt s q E, 0) eoiToken) = false -> isOver (parseFrom conf n (startAt s q E, 0) eoiToken) = true -> ~ meant s.
  Proof.
    intros H O M. apply (exactly s (startAt s q E) E) in M. destruct M as (m & P). destruct (P (m + n)%nat ltac:(lia)) as (r & p & X).
    destruct (ParserFuel.le_parseFrom conf n (m + n) (startAt s q E, 0) eoiToken ltac:(lia)) as [(s' & Y)|Y]; [rewrite Y in O; discriminate O|]. rewrite Y, X in H. discriminate H.
  Qed.
  (** "a +bc" is accepted, and means something; "a-b" is not: there is no such tree; "a +1" is not: it is not split into tokens *)
  Example accepted : meant (b "a +bc").
  Proof. apply (is_meant (b "a +bc") _ eq_refl 60). vm_compute. reflexivity. Qed.
  Example no_tree : ~ meant (b "a-b").
  Proof. apply (not_meant (b "a-b") _ eq_refl 60); vm_compute; reflexivity. Qed.
  Example no_split : ~ meant (b "a +1").
  Proof. apply (not_meant (b "a +1") _ eq_refl 60); vm_compute; reflexivity. Qed.
End Example1.
Print Assumptions queue_accepted_partial.
Print Assumptions string_accepted_partial.
Print Assumptions string_queue_made.
Print Assumptions made_tables_ll1.
