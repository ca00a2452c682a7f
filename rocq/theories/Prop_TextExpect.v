(** C65, from the text of a description and the text of a source: syntax errors are right. *)
From Coq Require Import String ZArith List Bool Lia Permutation.
From Verif Require Import Base BaseProofs Utf8 Regexp Grammar Queue SourceQueue SourceQueueSpec Prop_SourceQueue Lexer LexerSpec LexerProofs ParserNew ParserNewSpec ParserNewProofs
  ParserRegexp ParserRegexpProofs Prop_ParserNew TextParser.
From Verif Require Import LangBuild LangSpec Parser ParserSpec ParserSafeSpec ParserFlowSpec Prop_Parser LangNodes LangNodesSpec LangFirst LangDrop LangCompile LangTypes Prop_LangGrammar Prop_LangCompile LangText LangTextSpec Prop_LangText Prop_LangPredict LangDescSpec LangDescFacts LangDescUnique Prop_LangDesc PredictSpec Prop_Predict
  PredictCheck DescTreeSpec DescTree DescTokens Prop_DescTree DescLexer DescLexerSpec DescLexerProofs Prop_DescLexer TextParserSpec TextParserProofs Prop_TextParser ExpectSpec ExpectProofs ExpectCheck Prop_Expect DescExpectSpec.
Import ListNotations.
Open Scope Z_scope.

(** ** The same language, the same errors *)
Section Same.
Context {Tok E Inst R K K' : Type} (isTree isTree' : tree Tok Inst R -> Prop) (lexed : Tok -> Prop) (keep keep' : Tok -> bool)
  (name : K -> list Z -> Prop) (name' : K' -> list Z -> Prop) (fits : Tok -> K -> Prop) (fits' : Tok -> K' -> Prop) (eoi : Tok).
Hypothesis sameTrees : forall T, (forall t, In t (leaves T) -> lexed t) -> isTree T <-> isTree' T.
Hypothesis sameKeep : forall t, lexed t -> keep t = keep' t.
Hypothesis sameNames : forall k x, name k x -> exists k', name' k' x /\ forall t, lexed t -> fits' t k' -> fits t k.
Lemma filter_keep l : (forall t, In t l -> lexed t) -> filter keep l = filter keep' l.
Proof. induction l as [|t l IH]; intros H; [reflexivity|]. cbn [filter]. rewrite (sameKeep t (H t (or_introl eq_refl))), IH; [reflexivity|]. intros u I0. apply H. right. exact I0. Qed.
Lemma whole_same p : wholeOf isTree lexed keep p <-> wholeOf isTree' lexed keep' p.
Proof. split; intros (T & D & L & F); exists T; (split; [apply (sameTrees T L), D|]); (split; [exact L|]); [rewrite <- (filter_keep _ L)|rewrite (filter_keep _ L)]; exact F. Qed.
Lemma begins_same p : beginsOf isTree lexed keep p <-> beginsOf isTree' lexed keep' p.
Proof. split; intros (v & H); exists v; apply whole_same, H. Qed.
Lemma follow_same p x : couldFollowOf isTree lexed keep name fits p x -> couldFollowOf isTree' lexed keep' name' fits' p x.
Proof. intros (k & N & H). destruct (sameNames k x N) as (k' & N' & F). exists k'. split; [exact N'|]. intros t L M. apply begins_same, H; [exact L|apply F; assumption]. Qed.
Lemma error_same l (e : err Tok E) : rightErrorOf isTree lexed keep name fits eoi l e -> rightErrorOf isTree' lexed keep' name' fits' eoi l e.
Proof.
  destruct e; cbn [rightErrorOf]; auto.
  - rewrite begins_same, whole_same. intros (Q & A & B & C). split; [exact Q|]. split; [exact A|]. split; [exact B|apply follow_same, C].
  - intros (p & u & A & B & C & D). exists p, u. rewrite <- !begins_same. split; [exact A|]. split; [exact B|]. split; [exact C|apply follow_same, D].
  - intros (p & u & A & B & C). exists p, u. rewrite <- begins_same, <- whole_same. auto.
Qed.
End Same.

(** ** Descriptions *)
Section D.
Context {Tok Src W E Inst R : Type} (c : config Tok Src W E Inst R) (compiles : name -> bool) (fullMatch : name -> name -> bool) (orders : nat -> list Z * list Z * list Z).
Notation g := (cGrammar c).
Hypothesis anyOrders : forall n, let '(o1, o2, o3) := orders n in Permutation o1 (indexes n) /\ Permutation o2 (indexes n) /\ Permutation o3 (indexes n).
Variable fuel : nat.
Variable input : list tok.
Variable end_ : tail.
Variable rs : list record.
Hypothesis D : describedBy c compiles fullMatch orders fuel input end_ rs.
Hypothesis WF : wellFormed rs.
Variable lexed : Tok -> Prop.
Hypothesis LF : lexersFor c compiles fullMatch rs lexed.
Hypothesis endlessDefs : forall d, In d (defsOf rs) -> endless d = true.
Hypothesis solidDefs : neverEmpty (map Some (defsOf rs)).

(** An error of a parse is right, trees being those of the description, and terms being named as there. *)
Theorem description_error_partial root tl (fair : Src -> Prop) (view : Src -> list Tok) eoi pfuel w t0 e s : nodesDefined rs = root :: tl ->
  predictive c lexed -> finishable c lexed -> calmHooks c -> willing c lexed fair view eoi -> unreadOf c view -> unreadFair c fair -> fair (fst w) ->
  (forall t, In t (view (fst w)) -> cType c t <> EoiTokenType) ->
  parseFrom c pfuel w t0 = Fail e s ->
  rightErrorOf (Inst := Inst) (R := R) (treeOf (cType c) (cText c) (cUpper c) rs root) lexed (core c) termName (termFits (cType c) (cText c) (cUpper c) rs) eoi (filter (core c) (view (fst w))) e.
Proof.
  intros RT PR FI CH WI UN UF FA NE PF. destruct (understood c compiles fullMatch orders anyOrders fuel input end_ rs D) as (res & V & GT & RW & CD & ALL & LD & AB & firsts & FX & C1).
  pose proof (anyOrders (length (nodeNames rs))) as AO. destruct (orders (length (nodeNames rs))) as ((o1, o2), o3). destruct AO as (P1 & P2 & P3). rewrite <- LD in P1, P2, P3.
  destruct (compile_any fullMatch (cUpper c) _ _ _ _ o1 o2 o3 RW P1 P2 P3 _ _ CD) as (_ & _ & _ & _ & TE & _).
  pose proof (lexers_of c compiles fullMatch rs lexed LF res V GT) as LX. pose proof (sound_of c compiles fullMatch rs WF lexed LF endlessDefs solidDefs res V GT) as SD.
  pose proof (is_predictive c fullMatch _ _ _ _ o1 o2 o3 lexed RW P1 P2 P3 LX SD AB firsts FX C1 TE PR) as PG.
  pose proof (is_exact c _ _ _ _ lexed RW SD AB firsts FX C1) as EN.
  pose proof (syntax_error_right_partial c lexed fair view eoi pfuel w t0 e s PG EN FI CH WI UN UF FA NE PF) as RE. revert RE. apply error_same.
  - intros T L. rewrite <- (description_trees_partial c compiles fullMatch orders anyOrders fuel input end_ rs D WF root T); [|intros t I0; apply (lexed_plain c compiles fullMatch rs lexed LF), L, I0]. rewrite (root_first _ _ _ RT). reflexivity.
  - reflexivity.
  - intros k x (d & G & ->). pose proof (res_names _ _ _ _ (vd_regexps _ _ _ V)) as ER. pose proof (vd_types _ _ _ V) as ND. destruct (hasFlag (gtFlags d) LiteralToken) eqn:F.
    + destruct (literal_get g rs res GT ER k d G F) as (-> & IL & _). exists (TLiteral (gtName d)). split; [reflexivity|]. intros t L M. apply (lit_same (cType c) (cText c) (cUpper c) g rs res GT ER); [apply (lexed_plain c compiles fullMatch rs lexed LF), L|exact IL|exact M].
    + assert (LK : k < zlen (typeNames rs)). { destruct (Z.lt_ge_cases k (zlen (typeNames rs))) as [X|X]; [exact X|]. exfalso. rewrite (DescTokens.tokens_split g rs res GT), LangTypesProofs.zget_app_r in G by (rewrite types_K; [lia|exact ER]).
        rewrite LangFirst.zget_map in G. destruct (zget (literals rs) _) as [s0|]; [|discriminate]. injection G as <-. cbn in F. destruct (reservedNow s0 rs) in F; discriminate F. }
      destruct (get_type g rs res GT ER k d G LK) as (n & TN & NM & _). exists (TType n). split; [cbn; rewrite NM; reflexivity|]. intros t L M.
      rewrite (zget_position _ _ _ (typeNames_NoDup _ ND) TN). apply (type_same (cType c) (cText c) (cUpper c) g rs res GT ER ND); [apply (lexed_plain c compiles fullMatch rs lexed LF), L|eapply zget_In, TN|exact M].
Qed.
End D.

(** ** Texts *)
Section M.
Context {S : Type} (content : S -> list Z) (same : S -> S -> bool).
Hypothesis sameOk : forall a b, same a b = true <-> a = b.
Context {W Err Inst R : Type} (wrap : lexError S -> Err).
Variable prefers : name -> list Z -> option Z.
Hypothesis PO : regexpsOk prefers.
Hypothesis PC : regexpsCut prefers.
Variable compiles : name -> bool.
Variable compilesAll : list name -> bool.
Variable orders : nat -> list Z * list Z * list Z.
Hypothesis anyOrders : forall n, let '(o1, o2, o3) := orders n in Permutation o1 (indexes n) /\ Permutation o2 (indexes n) /\ Permutation o3 (indexes n).
Variable c : config (token S) (queueState content) W Err Inst R.
Notation g := (cGrammar c).

Lemma unread_fair ts (EG : gTokens g = ts) (SA : forall pl, In pl [groupLexer prefers (gTokens g) 0] -> sane content pl) (OT : overText content same wrap c [groupLexer prefers (gTokens g) 0] SA) :
  unreadFair c (fair content prefers c).
Proof.
  intros types src src' t FA H NI NF. rewrite (ot_type _ _ _ _ _ _ OT) in NI, NF. destruct (TextParserProofs.fetched content same wrap prefers PO c SA OT types src src' t H NF NI) as (s & p & i & d & n & r & EI & P & F & N & I64 & -> & EI').
  rewrite (ot_unread _ _ _ _ _ _ OT). unfold unreadToken. cbn [tokSource tokPos tokenAt]. cbn beta.
  assert (SC : scur (queueOf content src') = Some s).
  { destruct (proj2_sig src') as (A & _). change (fst (proj1_sig src')) with (queueOf content src') in A. change (snd (proj1_sig src')) with (itemsOf content src') in A. rewrite EI' in A. apply A. }
  rewrite SC, (proj2 (sameOk s s) eq_refl). unfold fair, seek, itemsOf. cbn [proj1_sig snd]. change (snd (proj1_sig src')) with (itemsOf content src'). rewrite EI'. cbn [a_move]. unfold slen. replace (Z.max 0 (Z.min (zlen (content s)) p)) with p by lia.
  destruct FA as (toks & Q). exists toks. rewrite EI in Q. exact Q.
Qed.
Variable description : list Z.
Variable fuel : nat.
Variable rs : list record.
Variable res : list (name * name).
Variable ls : list plexer.
Variable SA : forall pl, In pl ls -> sane content pl.
Hypothesis MF : madeFrom content same wrap prefers compiles compilesAll orders c description fuel rs res ls SA.
Hypothesis GF : goodFor content prefers c rs res.
Notation tokens := (tokensNow rs res).
Notation ofLexer := (ofLexer prefers tokens).
Notation fm := (fullMatch prefers).
Notation rightText root := (rightErrorOf (E := Err) (Inst := Inst) (R := R) (treeOf (@tokType S) (@tokContent S) (cUpper c) rs root) ofLexer (counts rs) termName (termFits (@tokType S) (@tokContent S) (cUpper c) rs) eoiToken).

(** The sources are split into tokens; a parse of them ends with an error.  Then it is a syntax error, and a right one. *)
Theorem queue_error_partial root tl src w t0 pfuel toks e s : nodesDefined rs = root :: tl -> predictive c ofLexer -> finishable c ofLexer -> calmHooks c ->
  queueTokens content prefers tokens (itemsOf content src) toks -> parseFrom c pfuel (src, w) t0 = Fail e s ->
  rightText root (filter (counts rs) toks) e.
Proof.
  intros RT PR FI CH QT PF. pose proof (mf_over _ _ _ _ _ _ _ _ _ _ _ _ _ _ MF) as OT.
  destruct (grammar_tokens content same wrap prefers compiles compilesAll orders anyOrders c description fuel rs res ls SA MF GF) as (GT & TO).
  destruct (described content same wrap prefers compiles compilesAll orders c description fuel rs res ls SA MF) as (input & D).
  pose proof (lexers_for content same wrap prefers PO PC compiles compilesAll orders c description fuel rs res ls SA MF GF) as LF.
  assert (CT : cType c = @tokType S) by apply (ot_type _ _ _ _ _ _ OT). assert (CX : cText c = @tokContent S) by apply (ot_text _ _ _ _ _ _ OT).
  destruct (gf_one _ _ _ _ _ GF) as ((i0 & n0 & re0 & I0 & R0 & L0) & NG).
  pose proof (one_lexer content same wrap prefers compiles compilesAll orders anyOrders c description fuel rs res ls SA MF GF) as OL.
  pose proof (core_counts content same wrap prefers PO PC compiles compilesAll orders anyOrders c description fuel rs res ls SA MF GF) as CC.
  clear MF. revert SA OT CC. rewrite OL. intros SA1 OT CC. pose proof (items_range content src) as IR.
  assert (G0 : forall i d, zget (gTokens g) i = Some d -> gtRe d <> [] -> gtGroup d = 0) by (intros i d G _; rewrite GT in G; apply zget_In in G; exact (group_zero _ _ NG _ G)).
  assert (SOME : exists i d, zget (gTokens g) i = Some d /\ gtRe d <> [] /\ i < 64).
  { pose proof (zget_Some_inv _ _ _ I0) as RI. exists i0. rewrite GT. unfold tokensNow. rewrite map_app, <- app_assoc, LangTypesProofs.zget_app_l by (unfold zlen in *; rewrite map_length; lia). rewrite LangFirst.zget_map, I0. eexists. split; [reflexivity|]. auto. }
  assert (LX : @TextParserSpec.ofLexer S prefers (gTokens g) = ofLexer) by (rewrite GT; reflexivity).
  pose proof (willing_ok content same wrap prefers PO c SA1 OT G0 SOME) as WI. rewrite LX in WI. rewrite <- GT in QT.
  pose proof (queue_view content prefers PO (gTokens g) [] _ _ QT IR) as QV. pose proof (queue_no_eoi content prefers PO _ _ _ QT) as NE.
  assert (QL : forall t, In t toks -> ofLexer t) by (rewrite <- LX; exact (queue_ofLexer content prefers _ _ _ QT)).
  assert (X := description_error_partial c compiles fm orders anyOrders fuel input TEnd rs D (gf_formed _ _ _ _ _ GF) ofLexer LF (gf_endless _ _ _ _ _ GF) (gf_solid _ _ _ _ _ GF) root tl (fair content prefers c) _ eoiToken pfuel (src, w) t0 e s RT PR FI CH WI
    (unread_ok content same sameOk wrap prefers PO c SA1 OT []) (unread_fair _ eq_refl SA1 OT) (ex_intro _ toks QT)). cbn [fst] in X. rewrite QV in X.
  specialize (X ltac:(rewrite CT; exact NE) PF). rewrite CT, CX in X.
  rewrite (filter_keep ofLexer (core c) (counts rs) CC toks QL) in X. revert X. apply error_same; [reflexivity|exact CC|eauto].
Qed.
(** The same for ParseString *)
Theorem string_error_partial root tl s src w t0 pfuel l e p : nodesDefined rs = root :: tl -> predictive c ofLexer -> finishable c ofLexer -> calmHooks c ->
  stringQueue content s = Some (queueOf content src) -> splitInto prefers tokens 0 (content s) l -> parseFrom c pfuel (src, w) t0 = Fail e p ->
  rightText root (filter (counts rs) (tokensAt tokens s 0 l)) e.
Proof.
  intros RT PR FI CH SQ SI PF. destruct (string_queue content s) as (q & E & Q). rewrite SQ in E. injection E as <-.
  assert (IS : itemsOf content src = [(s, 0)]) by (apply (items_unique (queueOf content src)); [exact (proj1 (proj2_sig src))|exact (proj1 Q)]).
  assert (EF : filter (counts rs) (tokensAt tokens s 0 l ++ [eofToken content s]) = filter (counts rs) (tokensAt tokens s 0 l)).
  { rewrite filter_app. cbn [filter]. unfold counts at 2. cbn [eofToken tokType]. rewrite Z.eqb_refl, andb_false_r, app_nil_r. reflexivity. }
  rewrite <- EF. eapply queue_error_partial; [exact RT|exact PR|exact FI|exact CH| |exact PF]. rewrite IS. constructor; [exact SI|constructor].
Qed.
(** Whether every node can be finished may be checked by a computation, given the types and literals there are tokens for. *)
Theorem made_tables_finishable good n : (forall k, good k = true -> exists t, ofLexer t /\ tokenMatches (cType c) (cText c) (cUpper c) g t k) -> finishableB g good n = true -> finishable c ofLexer.
Proof.
  intros GD H. eapply finishable_checked; [exact GD| |exact H]. clear GD H. destruct (described content same wrap prefers compiles compilesAll orders c description fuel rs res ls SA MF) as (input & D).
  pose proof (lexers_for content same wrap prefers PO PC compiles compilesAll orders c description fuel rs res ls SA MF GF) as LF.
  destruct (understood c compiles fm orders anyOrders fuel input TEnd rs D) as (res' & V & GT & RW & CD & ALL & LD & AB & firsts & FX & C1).
  pose proof (lexers_of c compiles fm rs ofLexer LF res' V GT) as LX. pose proof (sound_of c compiles fm rs (gf_formed _ _ _ _ _ GF) ofLexer LF (gf_endless _ _ _ _ _ GF) (gf_solid _ _ _ _ _ GF) res' V GT) as SD.
  pose proof (anyOrders (length (nodeNames rs))) as AO. destruct (orders (length (nodeNames rs))) as ((o1, o2), o3). destruct AO as (P1 & P2 & P3). rewrite <- LD in P1, P2, P3.
  destruct (compile_any fm (cUpper c) _ _ _ _ o1 o2 o3 RW P1 P2 P3 _ _ CD) as (_ & _ & _ & _ & TE & _).
  exact (is_ok c fm _ _ _ _ o1 o2 o3 ofLexer RW P1 P2 P3 SD AB firsts FX C1 TE).
Qed.
End M.

(** !side $space; $space = /[ ]+/; $name = /[a-z]+/; $op = /[+-]/; root = item, {'+', item}; item = $name; *)
Module Example1.
  Import Prop_TextParser.Example1.
  Notation lexed := (ofLexer prefers (tokensNow rs res)).
  Lemma piece_found i d piece : firstIn prefers (tokensNow rs res) piece = Some (i, d, zlen piece) -> 0 < zlen piece -> i < 64 -> lexed (mkToken i ""%string piece (@None (list Z)) 0).
  Proof.
    intros F N I64. pose proof (firstIn_spec prefers (tokensNow rs res) piece) as X. rewrite F in X. left. exists piece, d, (zlen piece). cbn [tokType tokContent]. repeat (split; [assumption|]).
    unfold zlen. rewrite Nat2Z.id, firstn_all. reflexivity.
  Qed.
  Lemma grammar_is : gTokens (cGrammar conf) = tokensNow rs res. Proof. vm_compute. reflexivity. Qed.
  (** there are tokens for "$name" and for "+" *)
  Definition good (k : Z) : bool := (k =? 1) || (k =? 3).
  Example good_tokens k : good k = true -> exists t, lexed t /\ tokenMatches (cType conf) (cText conf) (cUpper conf) (cGrammar conf) t k.
  Proof.
    intros G. apply orb_true_iff in G as [G|G]; apply Z.eqb_eq in G; subst k.
    - exists (mkToken 1 ""%string (b "ab") None 0). split; [eapply piece_found; [vm_compute; reflexivity|reflexivity|reflexivity]|].
      apply (type_same (cType conf) (cText conf) (cUpper conf) (cGrammar conf) rs res grammar_is eq_refl (vd_types _ _ _ valid_ok) _ (b "name")); [reflexivity|cbn; auto|].
      split; [reflexivity|]. intros s _. reflexivity.
    - exists (mkToken 2 ""%string (b "+") None 0). split; [eapply piece_found; [vm_compute; reflexivity|reflexivity|reflexivity]|].
      apply (lit_same (cType conf) (cText conf) (cUpper conf) (cGrammar conf) rs res grammar_is eq_refl _ (b "+")); [reflexivity|vm_compute; auto|].
      exists (b "op"). split; [reflexivity|]. split; [right; reflexivity|]. split; [reflexivity|vm_compute; auto].
  Qed.
  Example finish_ok : finishable conf lexed.
  Proof.
    apply (made_tables_finishable content nameEqb (fun e => e) prefers (trees_ok treeFor) cut (fun _ => true) (fun _ => true) orders Prop_LangText.Example1.any conf description 100 rs res ls SA made_ok good_ok good 10 good_tokens). vm_compute. reflexivity.
  Qed.
  (** what the error for the text [s] should be *)
  Definition right (s : list Z) (e : err (token (list Z)) (lexError (list Z))) : Prop :=
    rightErrorOf (Inst := Z) (R := Z) (treeOf (@tokType _) (@tokContent _) (fun x => x) rs (b "root")) lexed (counts rs) termName (termFits (@tokType _) (@tokContent _) (fun x => x) rs) eoiToken
      (filter (counts rs) (fst (textTokens content prefers (tokensNow rs res) s 0))) e.
  Lemma is_right s q E n e p : snd (textTokens content prefers (tokensNow rs res) s 0) = true -> parseFrom conf n (startAt s q E, 0) eoiToken = Fail e p -> right s e.
  Proof.
    intros SP PF. unfold right. destruct (textTokens content prefers (tokensNow rs res) s 0) as (l0, y) eqn:TT. cbn [fst snd] in *. subst y.
    destruct (TextParserProofs.tokens_split content prefers (trees_ok treeFor) (tokensNow rs res) s _ 0 l0 ltac:(unfold content; pose proof (zlen_nonneg s); lia) TT) as (l & SI & ->).
    exact (string_error_partial content nameEqb LangTextTotal.nameEqb_ok (fun e => e) prefers (trees_ok treeFor) cut (fun _ => true) (fun _ => true) orders Prop_LangText.Example1.any conf description 100 rs res ls SA made_ok good_ok
      (b "root") [b "item"] s (startAt s q E) 0 eoiToken n l e p eq_refl ll1_ok finish_ok calm_ok E SI PF).
  Qed.
  Definition errorOf {Tok Src W E Inst R A} (x : Parser.res Tok Src W E Inst R A) : option (err Tok E) := match x with Fail e _ => Some e | _ => None end.
  Lemma right_computed s q E n e : snd (textTokens content prefers (tokensNow rs res) s 0) = true -> errorOf (parseFrom conf n (startAt s q E, 0) eoiToken) = Some e -> right s e.
  Proof. intros SP X. destruct (parseFrom conf n (startAt s q E, 0) eoiToken) as [|e' p| |] eqn:P; try discriminate X. injection X as <-. exact (is_right s q E n e' p SP P). Qed.
  (** "a + -b": "-" is wrong, a name is expected; "a +": the same at the end; "a b": "b" is too much *)
  Definition minus : token (list Z) := mkToken 2 "op"%string (b "-") (Some (b "a + -b")) 4.
  Example unexpected : right (b "a + -b") (UnexpectedToken minus (b "$name")).
  Proof. apply (right_computed (b "a + -b") _ eq_refl 60); vm_compute; reflexivity. Qed.
  Example short : right (b "a +") (UnexpectedEoi eoiToken (b "$name")).
  Proof. apply (right_computed (b "a +") _ eq_refl 60); vm_compute; reflexivity. Qed.
  Example more : right (b "a b") (RemainingSource (mkToken 1 "name"%string (b "b") (Some (b "a b")) 2)).
  Proof. apply (right_computed (b "a b") _ eq_refl 60); vm_compute; reflexivity. Qed.
End Example1.
Print Assumptions description_error_partial.
Print Assumptions queue_error_partial.
Print Assumptions string_error_partial.
Print Assumptions made_tables_finishable.
