From Coq Require Import String ZArith List Lia Bool.
From Verif Require Import Base BaseProofs Utf8 Grammar Queue QueueProofs SourceQueue SourceQueueSpec Prop_SourceQueue Lexer LexerSpec LexerProofs
  ParserNew ParserNewSpec ParserNewProofs TextParser LangDescSpec DescTreeSpec TextParserSpec.
From Verif Require Parser ParserFlowSpec PredictSpec.
Import ListNotations.
Open Scope Z_scope.

Section V.
Context {S : Type} (content : S -> list Z) (same : S -> S -> bool).
Variable prefers : name -> list Z -> option Z.
Hypothesis PO : regexpsOk prefers.
Variable ts : list gtoken.
Notation G := (groupTypes 0 0 ts).
Notation rest := (rest content).
Definition firstIn (text : list Z) : option (Z * gtoken * Z) :=
  match firstMatch prefers 0 (map (fun x => gtRe (snd x)) G) text with
  | Some (k, n) => match nth_error G k with Some (i, d) => Some (i, d, n) | None => None end
  | None => None
  end.
Lemma firstIn_spec text : match firstIn text with Some (i, d, n) => firstType prefers ts 0 text i d n | None => noType prefers ts 0 text end.
Proof.
  unfold firstIn. pose proof (firstMatch_spec prefers text (map (fun x => gtRe (snd x)) G) 0) as F. destruct (firstMatch prefers 0 _ text) as [(k, n)|].
  - destruct F as (pre & r & post & EL & -> & PR & NP). destruct (map_split _ _ _ _ _ EL) as (p & (i, d) & q & EG & -> & -> & ->).
    rewrite map_length, Nat.add_0_l, EG, nth_error_app2, Nat.sub_diag by lia. cbn [nth_error]. pose proof (groupTypes_sorted 0 ts 0 _ _ _ EG) as [SA SB]. constructor.
    + apply groupTypes_In0. rewrite EG. apply in_or_app. right. left. reflexivity.
    + exact PR.
    + intros j d' LT IG. apply groupTypes_In0 in IG. rewrite EG in IG. apply in_app_or in IG as [IG|[[= <- <-]|IG]]; [|lia|].
      * rewrite Forall_forall in NP. apply NP. change (gtRe d') with ((fun x : Z * gtoken => gtRe (snd x)) (j, d')). apply in_map. exact IG.
      * apply SB in IG. cbn [fst] in IG. lia.
  - intros i d IG. apply groupTypes_In0 in IG. rewrite Forall_forall in F. apply F. change (gtRe d) with ((fun x : Z * gtoken => gtRe (snd x)) (i, d)). apply in_map. exact IG.
Qed.
Lemma firstIn_is text i d n : firstType prefers ts 0 text i d n -> firstIn text = Some (i, d, n).
Proof.
  intros F. pose proof (firstIn_spec text) as X. destruct (firstIn text) as [((i', d'), n')|].
  - destruct (firstType_unique prefers ts 0 _ _ _ _ _ _ _ F X) as (-> & -> & ->). reflexivity.
  - destruct F as [A B _]. rewrite (X i d A) in B. discriminate.
Qed.
Lemma firstType_range text i d n : firstType prefers ts 0 text i d n -> 0 <= i < zlen ts /\ 0 <= n <= zlen text.
Proof. intros F. split; [apply (zget_range _ _ _ (proj1 (ft_type _ _ _ _ _ _ _ F)))|apply (PO _ _ _ (ft_match _ _ _ _ _ _ _ F))]. Qed.
Lemma rest_zlen s p : 0 <= p <= zlen (content s) -> zlen (rest s p) = zlen (content s) - p.
Proof. intros H. unfold ParserNewSpec.rest, zlen in *. rewrite skipn_length. lia. Qed.
Lemma rest_move s p n : 0 <= p -> 0 <= n -> skipn (Z.to_nat n) (rest s p) = rest s (p + n).
Proof. intros A B. unfold ParserNewSpec.rest. rewrite skipn_skipn'. f_equal. lia. Qed.

(** tokens of a source from [p] up to the end or to where no token is found; whether the end is reached *)
Definition tokenAt (s : S) (p i : Z) (d : gtoken) (n : Z) : token S := mkToken i (nameText (gtName d)) (firstn (Z.to_nat n) (rest s p)) (Some s) p.
Fixpoint lexText (fuel : nat) (s : S) (p : Z) : list (token S) * bool :=
  match fuel with
  | O => ([], false)
  | Datatypes.S f =>
      if zlen (content s) <=? p then ([], true)
      else match firstIn (rest s p) with
           | Some (i, d, n) => if (0 <? n) && (i <? 64) then let (l, b) := lexText f s (p + n) in (tokenAt s p i d n :: l, b) else ([], false)
           | None => ([], false)
           end
  end.
Lemma lexText_fuel : forall f f' s p, 0 <= p <= zlen (content s) -> zlen (content s) - p < Z.of_nat f -> zlen (content s) - p < Z.of_nat f' -> lexText f s p = lexText f' s p.
Proof.
  induction f as [|f IH]; intros [|f'] s p P A B; cbn [lexText].
  - reflexivity.
  - lia.
  - lia.
  - destruct (Z.leb_spec (zlen (content s)) p); [reflexivity|]. pose proof (firstIn_spec (rest s p)) as F. destruct (firstIn (rest s p)) as [((i, d), n)|]; [|reflexivity]. destruct (firstType_range _ _ _ _ F) as (_ & RN). rewrite rest_zlen in RN by exact P. destruct (Z.ltb_spec 0 n); [|reflexivity]. cbn [andb].
    rewrite (IH f' s (p + n)) by lia. reflexivity.
Qed.
Definition textTokens (s : S) (p : Z) := lexText (Datatypes.S (Z.to_nat (zlen (content s) - p))) s p.
Lemma textTokens_end s p : zlen (content s) <= p -> textTokens s p = ([], true).
Proof. intros H. unfold textTokens. cbn [lexText]. destruct (Z.leb_spec (zlen (content s)) p); [reflexivity|lia]. Qed.
Lemma textTokens_step s p i d n : 0 <= p < zlen (content s) -> firstType prefers ts 0 (rest s p) i d n -> 0 < n -> i < 64 ->
  textTokens s p = (tokenAt s p i d n :: fst (textTokens s (p + n)), snd (textTokens s (p + n))).
Proof.
  intros P F N I. destruct (firstType_range _ _ _ _ F) as (_ & RN). rewrite rest_zlen in RN by lia. unfold textTokens at 1. cbn [lexText]. destruct (Z.leb_spec (zlen (content s)) p); [lia|]. rewrite (firstIn_is _ _ _ _ F). destruct (Z.ltb_spec 0 n); [|lia]. destruct (Z.ltb_spec i 64); [|lia]. cbn [andb].
  rewrite (lexText_fuel _ (Datatypes.S (Z.to_nat (zlen (content s) - (p + n)))) s (p + n)) by lia. fold (textTokens s (p + n)). destruct (textTokens s (p + n)). reflexivity.
Qed.
(** tokens of a queue; [mark] stands where no token is found *)
Variable mark : list (token S).
Fixpoint viewOf (l : aq S) : list (token S) :=
  match l with
  | [] => []
  | (s, p) :: r => let (t, b) := textTokens s p in if b then t ++ eofToken content s :: viewOf r else t ++ mark
  end.
Lemma view_eof s p r : zlen (content s) <= p -> viewOf ((s, p) :: r) = eofToken content s :: viewOf r.
Proof. intros H. cbn [viewOf]. rewrite textTokens_end by exact H. reflexivity. Qed.
Lemma view_token s p r i d n : 0 <= p < zlen (content s) -> firstType prefers ts 0 (rest s p) i d n -> 0 < n -> i < 64 ->
  viewOf ((s, p) :: r) = tokenAt s p i d n :: viewOf ((s, p + n) :: r).
Proof. intros P F N I. cbn [viewOf]. rewrite (textTokens_step s p i d n P F N I). destruct (textTokens s (p + n)) as (t, []); reflexivity. Qed.
Lemma view_called q l tts res after : qok content q l -> called content prefers ts 0 tts (seen q) res after ->
  match res with
  | (Some t, None) => viewOf l = t :: viewOf (afterRes l res) \/ (l = [] /\ t = eoiToken)
  | (None, _) => True
  | _ => False
  end.
Proof.
  intros (A & O & _) C. destruct l as [|(s0, p0) r]; cbn [absq] in A; destruct A as (A1 & A2 & _); unfold seen in C; rewrite A1, A2 in C;
  inversion C as [?|W0|s1 a1 W0|s1 p1 i d n HR FT Hn I64 B|s1 p1 i d n W0 HR FT Hn I64 B|s1 p1 i d n W0 HR FT Hn I64|s1 p1 W0 HR X]; subst; auto; left.
  - cbn [afterRes tokType eofToken newToken]. rewrite Z.eqb_refl. apply view_eof. lia.
  - rewrite (view_token s0 _ r i d n HR FT Hn I64). cbn [afterRes tokType tokContent]. destruct (firstType_range _ _ _ _ FT) as (RI & RN). destruct (Z.eqb_spec i EofTokenType) as [X|_]; [unfold EofTokenType in X; lia|].
    replace (zlen (firstn (Z.to_nat n) (rest s0 (spos q)))) with n by (unfold zlen in *; rewrite firstn_length; lia). reflexivity.
Qed.
(** sources without lexical errors *)
Lemma split_tokens s text l : splitInto prefers ts 0 text l -> forall p, 0 <= p <= zlen (content s) -> text = rest s p -> textTokens s p = (tokensAt ts s p l, true).
Proof.
  intros SP. induction SP as [|text i d n l F N I SP IH]; intros p P E.
  - apply textTokens_end. pose proof (rest_zlen s p P) as X. rewrite <- E in X. unfold zlen in *. cbn in X. lia.
  - destruct (firstType_range _ _ _ _ F) as (RI & RN). subst text. pose proof (rest_zlen s p P) as RZ. rewrite (textTokens_step s p i d n) by (auto; lia).
    rewrite (IH (p + n)) by (try (apply rest_move); lia). cbn [fst snd tokensAt]. rewrite (proj1 (ft_type _ _ _ _ _ _ _ F)). replace (zlen (firstn (Z.to_nat n) (rest s p))) with n by (unfold zlen in *; rewrite firstn_length; lia). reflexivity.
Qed.
Lemma tokens_split s : forall f p l, 0 <= p <= zlen (content s) -> lexText f s p = (l, true) -> exists l', splitInto prefers ts 0 (rest s p) l' /\ l = tokensAt ts s p l'.
Proof.
  induction f as [|f IH]; intros p l P E; cbn [lexText] in E; [discriminate|]. destruct (Z.leb_spec (zlen (content s)) p).
  - injection E as <-. exists []. split; [|reflexivity]. pose proof (rest_zlen s p P) as X. replace (rest s p) with (@nil Z); [constructor|]. destruct (rest s p); [reflexivity|]. unfold zlen in *. cbn in X. lia.
  - pose proof (firstIn_spec (rest s p)) as F. destruct (firstIn (rest s p)) as [((i, d), n)|]; [|discriminate]. destruct (Z.ltb_spec 0 n); [|discriminate]. destruct (Z.ltb_spec i 64); [|discriminate]. cbn [andb] in E.
    destruct (firstType_range _ _ _ _ F) as (RI & RN). rewrite rest_zlen in RN by exact P. destruct (lexText f s (p + n)) as (l0, b) eqn:X. injection E as <- ->. destruct (IH (p + n) l0 ltac:(lia) X) as (l' & SP & ->).
    exists ((i, firstn (Z.to_nat n) (rest s p)) :: l'). split.
    + apply (SI_token _ _ _ _ _ d); auto. rewrite rest_move by lia. exact SP.
    + cbn [tokensAt]. rewrite (proj1 (ft_type _ _ _ _ _ _ _ F)). replace (zlen (firstn (Z.to_nat n) (rest s p))) with n by (unfold zlen; rewrite firstn_length; pose proof (rest_zlen s p P) as Y; unfold zlen in *; lia). reflexivity.
Qed.
Definition inRange (l : aq S) : Prop := Forall (fun x => 0 <= snd x <= zlen (content (fst x))) l.
Lemma queue_view l toks : queueTokens content prefers ts l toks -> inRange l -> viewOf l = toks.
Proof.
  induction 1 as [|s p r l toks SP _ IH]; intros IR; [reflexivity|]. inversion IR as [|? ? P IR']; subst. cbn [fst snd viewOf] in *. rewrite (split_tokens s _ _ SP p P eq_refl), (IH IR'). reflexivity.
Qed.
Lemma queue_splits l : inRange l -> (exists toks, queueTokens content prefers ts l toks) \/ (exists before, viewOf l = before ++ mark).
Proof.
  induction l as [|(s, p) r IH]; intros IR; [left; exists []; constructor|]. inversion IR as [|? ? P IR']; subst. cbn [fst snd viewOf] in *. destruct (textTokens s p) as (t, b) eqn:T. destruct b.
  - destruct (tokens_split s _ p t P T) as (l' & SP & ->). destruct (IH IR') as [(toks & Q)|(before & ->)].
    + left. eexists. constructor; eauto.
    + right. exists (tokensAt ts s p l' ++ eofToken content s :: before). rewrite <- app_assoc. reflexivity.
  - right. eauto.
Qed.
Lemma queue_ofLexer l toks : queueTokens content prefers ts l toks -> forall t, In t toks -> ofLexer prefers ts t.
Proof.
  assert (TX : forall text l, splitInto prefers ts 0 text l -> forall (s : S) p t, In t (tokensAt ts s p l) -> ofLexer prefers ts t).
  { induction 1 as [|text i d n l0 F N I SP IH]; intros s p t I0; cbn [tokensAt] in I0; [destruct I0|]. destruct I0 as [<-|I0]; [|eapply IH, I0]. left. cbn [tokType tokContent]. exists text, d, n. auto. }
  induction 1 as [|s p r l toks SP _ IH]; intros t I0; [destruct I0|]. apply in_app_or in I0 as [I0|[<-|I0]]; [eapply TX; eauto| |auto]. right. left. reflexivity.
Qed.
Lemma queue_no_eoi l toks : queueTokens content prefers ts l toks -> forall t, In t toks -> tokType t <> EoiTokenType.
Proof.
  assert (TX : forall text l, splitInto prefers ts 0 text l -> forall (s : S) p t, In t (tokensAt ts s p l) -> tokType t <> EoiTokenType).
  { induction 1 as [|text i d n l0 F N I SP IH]; intros s p t I0; cbn [tokensAt] in I0; [destruct I0|]. destruct I0 as [<-|I0]; [|eapply IH, I0]. cbn [tokType]. destruct (firstType_range _ _ _ _ F) as (RI & _). unfold EoiTokenType. lia. }
  induction 1 as [|s p r l toks SP _ IH]; intros t I0; [destruct I0|]. apply in_app_or in I0 as [I0|[<-|I0]]; [eapply TX; eauto|discriminate|auto].
Qed.
Lemma view_ofLexer l : forall t, In t (viewOf l) -> In t mark \/ ofLexer prefers ts t.
Proof.
  assert (TX : forall f s p t, In t (fst (lexText f s p)) -> ofLexer prefers ts t).
  { induction f as [|f IH]; intros s p t; cbn [lexText]; [intros []|]. destruct (zlen (content s) <=? p); [intros []|]. pose proof (firstIn_spec (rest s p)) as F. destruct (firstIn (rest s p)) as [((i, d), n)|]; [|intros []].
    destruct (Z.ltb_spec 0 n); [|intros []]. destruct (Z.ltb_spec i 64); [|intros []]. cbn [andb]. specialize (IH s (p + n)). destruct (lexText f s (p + n)) as (l0, b). intros [<-|I0]; [|apply IH, I0]. left. cbn [tokType tokContent tokenAt]. exists (rest s p), d, n. auto. }
  induction l as [|(s, p) r IH]; intros t; cbn [viewOf]; [intros []|]. pose proof (TX (Datatypes.S (Z.to_nat (zlen (content s) - p))) s p) as Y. fold (textTokens s p) in Y. destruct (textTokens s p) as (l0, []); cbn [fst] in Y; intros I0; apply in_app_or in I0 as [I0|I0]; auto.
  destruct I0 as [<-|I0]; [|auto]. right. right. left. reflexivity.
Qed.
Lemma view_no_eoi l : inRange l -> (forall t, In t mark -> tokType t <> EoiTokenType) -> forall t, In t (viewOf l) -> tokType t <> EoiTokenType.
Proof.
  intros IR M. assert (TX : forall f s p t, In t (fst (lexText f s p)) -> tokType t <> EoiTokenType).
  { induction f as [|f IH]; intros s p t; cbn [lexText]; [intros []|]. destruct (zlen (content s) <=? p); [intros []|]. pose proof (firstIn_spec (rest s p)) as F. destruct (firstIn (rest s p)) as [((i, d), n)|]; [|intros []]. destruct (_ && _); [|intros []].
    specialize (IH s (p + n)). destruct (lexText f s (p + n)) as (l0, b). intros [<-|I0]; [|apply IH, I0]. cbn [tokType tokenAt]. destruct (firstType_range _ _ _ _ F). unfold EoiTokenType. lia. }
  clear IR. induction l as [|(s, p) r IH]; intros t; cbn [viewOf]; [intros []|]. pose proof (TX (Datatypes.S (Z.to_nat (zlen (content s) - p))) s p) as Y. fold (textTokens s p) in Y. destruct (textTokens s p) as (l0, []); cbn [fst] in Y; intros I0; apply in_app_or in I0 as [I0|I0]; auto.
  destruct I0 as [<-|I0]; [discriminate|auto].
Qed.
End V.

(** The list of items is determined by the queue. *)
Lemma toItem_inj {S} (l : aq S) : forall l', map toItem l = map toItem l' -> l = l'.
Proof.
  induction l as [|(a, b) l IH]; intros [|(a', b') l'] E; try discriminate; [reflexivity|]. cbn [map] in E. unfold toItem at 1 3 in E. cbn [fst snd] in E. injection E as -> -> E. f_equal. apply IH, E.
Qed.
Lemma items_unique {S} (q : @squeue S) l l' : absq q l -> absq q l' -> l = l'.
Proof.
  intros A A'. destruct l as [|(s, p) r], l' as [|(s', p') r']; cbn [absq] in *; destruct A as (A1 & A2 & A3), A' as (B1 & B2 & B3); try congruence.
  rewrite A1 in B1. injection B1 as <-. rewrite <- A2, <- B2. f_equal. pose proof (items_inv qitem0 _ _ A3) as X. rewrite (items_inv qitem0 _ _ B3) in X. injection X as X. symmetry. apply toItem_inj, X.
Qed.

Section C.
Context {S : Type} (content : S -> list Z) (same : S -> S -> bool).
Hypothesis sameOk : forall a b, same a b = true <-> a = b.
Context {Err : Type} (wrap : lexError S -> Err).
Variable prefers : name -> list Z -> option Z.
Hypothesis PO : regexpsOk prefers.
Context {W Inst R : Type} (c : Parser.config (token S) (queueState content) W Err Inst R).
Notation g := (Parser.cGrammar c).
Notation ts := (gTokens g).
Variable SA : forall pl, In pl [groupLexer prefers ts 0] -> sane content pl.
Hypothesis OT : overText content same wrap c [groupLexer prefers ts 0] SA.
Notation items := (itemsOf content).
Lemma items_range src : inRange content (items src).
Proof. exact (proj1 (proj1 (proj2 (proj2_sig src)))). Qed.

Lemma lexCall_is pl (SP : sane content pl) src tts q' res : lexNextOf content (plRe pl) (plLexer pl) (queueOf content src) (u64 tts) = Some (q', res) ->
  exists src', lexCall content wrap pl SP src tts = (src', (fst res, option_map wrap (snd res))) /\ queueOf content src' = q' /\ items src' = afterRes (items src) res.
Proof.
  unfold lexCall. generalize (sane_state content pl SP src tts). destruct (lexNextOf content (plRe pl) (plLexer pl) (queueOf content src) (u64 tts)) as [(q1, r1)|]; [|discriminate].
  intros F E. injection E as <- <-. eexists. split; [reflexivity|]. split; reflexivity.
Qed.
Lemma fetch_is types src : exists src' res, called content prefers ts 0 (u64 types) (seen (queueOf content src)) res (seen (queueOf content src')) /\ items src' = afterRes (items src) res /\
  Parser.fetchToken c types src = (src', match res with (Some t, None) => (Some t, None) | (_, e) => (None, if types =? AllTokenTypes then option_map wrap e else None) end).
Proof.
  destruct (lexer_call prefers PO ts 0 content (queueOf content src) (items src) (u64 types) (proj2_sig src) (u64_nonneg types)) as (q' & res & E & CL & _).
  unfold Parser.fetchToken. rewrite (ot_lexers _ _ _ _ _ _ OT). cbn [lexersOf Parser.fetchLoop].
  destruct (lexCall_is (groupLexer prefers ts 0) (SA _ (or_introl eq_refl)) src types q' res E) as (src' & -> & EQ & EI). exists src', res. rewrite EQ. split; [exact CL|]. split; [exact EI|].
  change Parser.AllTokenTypes with AllTokenTypes. destruct res as ([t|], [e|]); reflexivity.
Qed.
(** what a call does with the items *)
Lemma after_none l e : afterRes l (@pair (option (token S)) (option (lexError S)) None e) = l.
Proof. destruct l as [|(s, p) r]; reflexivity. Qed.
Notation view mark := (fun src => viewOf content prefers ts mark (items src)).
Lemma source_ok mark : ParserFlowSpec.sourceOf c (view mark) eoiToken.
Proof.
  split; [rewrite (ot_type _ _ _ _ _ _ OT); reflexivity|]. split.
  - intros types src src' t H. destruct (fetch_is types src) as (src1 & res & CL & EI & EF). rewrite EF in H. destruct res as ([t1|], [e1|]); try discriminate H.
    injection H as <- <-. pose proof (view_called content prefers PO ts mark _ _ _ _ _ (proj2_sig src) CL) as X. cbn beta iota in X. rewrite EI. destruct X as [X|(X & ->)]; [left; exact X|]. right. change (snd (proj1_sig src)) with (items src) in X. rewrite X. auto.
  - intros types src src' H. destruct (fetch_is types src) as (src1 & res & CL & EI & EF). rewrite EF in H. pose proof (view_called content prefers PO ts mark _ _ _ _ _ (proj2_sig src) CL) as X. destruct res as ([t1|], e1).
    + destruct e1; [destruct X|discriminate H].
    + assert (src1 = src') as <- by congruence. rewrite EI, after_none. reflexivity.
Qed.
(** an ordinary token *)
Lemma fetched types src src' t : Parser.fetchToken c types src = (src', (Some t, None)) -> tokType t <> EofTokenType -> tokType t <> EoiTokenType ->
  exists s p i d n r, items src = (s, p) :: r /\ 0 <= p < zlen (content s) /\ firstType prefers ts 0 (rest content s p) i d n /\ 0 < n /\ i < 64 /\ t = tokenAt content s p i d n /\ items src' = (s, p + n) :: r.
Proof.
  intros H NF NI. destruct (fetch_is types src) as (src1 & res & CL & EI & EF). rewrite EF in H. destruct res as ([t1|], [e1|]); try discriminate H. injection H as <- <-.
  destruct (proj2_sig src) as (A & O & _). change (fst (proj1_sig src)) with (queueOf content src) in A. change (snd (proj1_sig src)) with (items src) in A, O.
  destruct (items src) as [|(s0, p0) r]; cbn [absq] in A; destruct A as (A1 & A2 & _); unfold seen at 1 in CL; rewrite A1, A2 in CL;
  inversion CL as [?|W0|s1 a1 W0|s1 p1 i d n HR FT Hn I64 B|s1 p1 i d n W0 HR FT Hn I64 B|s1 p1 i d n W0 HR FT Hn I64|s1 p1 W0 HR X]; subst; try (exfalso; apply NI; reflexivity); try (exfalso; apply NF; reflexivity).
  exists s0, (spos (queueOf content src)), i, d, n, r. repeat (split; [first [reflexivity|assumption|lia]|]).
  rewrite EI. cbn [afterRes tokType tokContent]. destruct (firstType_range prefers PO ts _ _ _ _ FT) as (RI & RN). destruct (Z.eqb_spec i EofTokenType) as [X|_]; [unfold EofTokenType in X; lia|].
  replace (zlen (firstn (Z.to_nat n) (rest content s0 (spos (queueOf content src))))) with n by (unfold zlen in *; rewrite firstn_length; lia). reflexivity.
Qed.
Lemma unread_ok mark : ParserFlowSpec.unreadOf c (view mark).
Proof.
  intros types src src' t H NI NF. rewrite (ot_type _ _ _ _ _ _ OT) in NI, NF. destruct (fetched types src src' t H NF NI) as (s & p & i & d & n & r & EI & P & F & N & I64 & -> & EI').
  rewrite (ot_unread _ _ _ _ _ _ OT). unfold unreadToken. cbn [tokSource tokPos tokenAt]. cbn beta.
  assert (SC : scur (queueOf content src') = Some s).
  { destruct (proj2_sig src') as (A & _). change (fst (proj1_sig src')) with (queueOf content src') in A. change (snd (proj1_sig src')) with (items src') in A. rewrite EI' in A. apply A. }
  rewrite SC, (proj2 (sameOk s s) eq_refl). unfold seek, itemsOf at 1. cbn [proj1_sig snd]. rewrite EI'. cbn [a_move]. unfold slen. replace (Z.max 0 (Z.min (zlen (content s)) p)) with p by lia. apply view_token; auto.
Qed.
Definition fair (src : queueState content) : Prop := exists toks, queueTokens content prefers ts (items src) toks.
Lemma fair_fetch types src : fair src -> exists src' t, Parser.fetchToken c types src = (src', (t, None)) /\ fair src'.
Proof.
  intros (toks & Q). destruct (fetch_is types src) as (src1 & res & CL & EI & EF). rewrite EF. destruct (proj2_sig src) as (A & O & _). change (fst (proj1_sig src)) with (queueOf content src) in A. change (snd (proj1_sig src)) with (items src) in A, O.
  cut ((exists t, match res with (Some t, None) => (Some t, None) | (_, e) => (None, if types =? AllTokenTypes then option_map wrap e else None) end = (t, None)) /\
    exists toks, queueTokens content prefers ts (afterRes (items src) res) toks).
  { intros ((t & E1) & E2). exists src1, t. rewrite E1. split; [reflexivity|]. unfold fair. rewrite EI. exact E2. }
  clear EI EF. destruct (items src) as [|(s0, p0) r]; cbn [absq] in A; destruct A as (A1 & A2 & _); unfold seen at 1 in CL; rewrite A1, A2 in CL.
  - inversion CL; subst; (split; [eexists; cbn [option_map]; try (destruct (types =? AllTokenTypes)); reflexivity|]); exists toks; exact Q.
  - inversion Q as [|? ? ? l ts0 SP Q']; subst.
    inversion CL as [?|W0|s1 a1 W0|s1 p1 i d n HR FT Hn I64 B|s1 p1 i d n W0 HR FT Hn I64 B|s1 p1 i d n W0 HR FT Hn I64|s1 p1 W0 HR X]; subst.
    + split; [eexists; cbn [option_map]; destruct (types =? AllTokenTypes); reflexivity|]. cbn [afterRes]. eauto.
    + split; [eexists; reflexivity|]. cbn [afterRes tokType eofToken newToken]. rewrite Z.eqb_refl. eauto.
    + split; [eexists; reflexivity|]. cbn [afterRes tokType tokContent]. destruct (firstType_range prefers PO ts _ _ _ _ FT) as (RI & RN). destruct (Z.eqb_spec i EofTokenType) as [X|_]; [unfold EofTokenType in X; lia|].
      replace (zlen (firstn (Z.to_nat n) (rest content s0 (spos (queueOf content src))))) with n by (unfold zlen in *; rewrite firstn_length; lia).
      inversion SP as [E0|text i' d' n' l' F' N' I' SP' E0]; subst.
      * exfalso. symmetry in E0. pose proof (rest_zlen content s0 (spos (queueOf content src)) ltac:(lia)) as X. rewrite E0 in X. cbn in X. lia.
      * destruct (firstType_unique prefers ts 0 _ _ _ _ _ _ _ FT F') as (<- & <- & <-). rewrite rest_move in SP' by lia. eexists. constructor; eauto.
    + split; [eexists; cbn [option_map]; destruct (types =? AllTokenTypes); reflexivity|]. cbn [afterRes]. eauto.
    + exfalso. inversion SP as [E0|text i' d' n' l' F' N' I' SP' E0]; subst.
      * symmetry in E0. pose proof (rest_zlen content s0 (spos (queueOf content src)) ltac:(lia)) as X. rewrite E0 in X. cbn in X. lia.
      * destruct (firstType_unique prefers ts 0 _ _ _ _ _ _ _ FT F') as (<- & <- & <-). lia.
    + exfalso. inversion SP as [E0|text i' d' n' l' F' N' I' SP' E0]; subst.
      * symmetry in E0. pose proof (rest_zlen content s0 (spos (queueOf content src)) ltac:(lia)) as X1. rewrite E0 in X1. cbn in X1. lia.
      * destruct X as [X|(i & d & X)]; [pose proof (X _ _ (ft_type _ _ _ _ _ _ _ F')) as Y; rewrite (ft_match _ _ _ _ _ _ _ F') in Y; discriminate|]. destruct (firstType_unique prefers ts 0 _ _ _ _ _ _ _ X F') as (_ & _ & <-). lia.
Qed.
Lemma u64_bit x i : 0 <= i < 64 -> Z.testbit (u64 x) i = Z.testbit x i.
Proof. intros H. unfold u64. rewrite Z.mod_pow2_bits_low by lia. reflexivity. Qed.
Hypothesis groups0 : forall i d, zget ts i = Some d -> gtRe d <> [] -> gtGroup d = 0.
Lemma fair_wanted types src src' : fair src -> Parser.fetchToken c types src = (src', (None, None)) ->
  ~ PredictSpec.wanted c types (Parser.cType c (hd eoiToken (viewOf content prefers ts [] (items src)))).
Proof.
  intros (toks & Q) H. rewrite (ot_type _ _ _ _ _ _ OT). destruct (fetch_is types src) as (src1 & res & CL & EI & EF). rewrite EF in H. destruct (proj2_sig src) as (A & O & _). change (fst (proj1_sig src)) with (queueOf content src) in A. change (snd (proj1_sig src)) with (items src) in A, O. pose proof (items_range src) as IR.
  assert (SPECIAL : forall k, k < 64 -> PredictSpec.hasRegexp c k -> Z.testbit types k = true -> someWanted ts 0 (u64 types)).
  { intros k K (d & GD & RE) B. exists k, d. split; [split; [exact GD|]; split; [exact RE|]; eapply groups0; eauto|]. split; [exact K|]. rewrite u64_bit; [exact B|]. apply zget_range in GD. lia. }
  unfold PredictSpec.wanted. destruct (items src) as [|(s0, p0) r]; cbn [absq] in A; destruct A as (A1 & A2 & _); unfold seen at 1 in CL; rewrite A1, A2 in CL.
  - cbn [viewOf hd]. cbn [tokType eoiToken newToken]. change (EoiTokenType <? 0) with true. cbn iota. intros (k & K & RE & B). inversion CL; subst; try discriminate H. match goal with [X : ~ someWanted _ _ _ |- _] => apply X end. eauto.
  - inversion IR as [|? ? P _]; subst. cbn [fst snd] in P. inversion Q as [|? ? ? l ts0 SP Q']; subst.
    inversion SP as [E0|text i' d' n' l' F' N' I' SP' E0]; subst.
    + symmetry in E0. pose proof (rest_zlen content s0 _ P) as X. rewrite E0 in X. cbn in X. rewrite view_eof by lia. cbn [hd tokType eofToken newToken]. change (EofTokenType <? 0) with true. cbn iota. intros (k & K & RE & B).
      inversion CL as [?|W0|s1 a1 W0|s1 p1 i d n HR FT Hn I64 B1|s1 p1 i d n W0 HR FT Hn I64 B1|s1 p1 i d n W0 HR FT Hn I64|s1 p1 W0 HR X1]; subst; try discriminate H; try lia. match goal with [X : ~ someWanted _ _ _ |- _] => apply X end. eauto.
    + destruct (firstType_range prefers PO ts _ _ _ _ F') as (RI & RN). rewrite rest_zlen in RN by exact P. rewrite (view_token content prefers PO ts [] s0 _ r i' d' n') by (auto; lia). cbn [hd tokType tokenAt].
      destruct (Z.ltb_spec i' 0); [lia|]. intros B.
      inversion CL as [?|W0|s1 a1 W0|s1 p1 i d n HR FT Hn I64 B1|s1 p1 i d n W0 HR FT Hn I64 B1|s1 p1 i d n W0 HR FT Hn I64|s1 p1 W0 HR X1]; subst; try discriminate H.
      * match goal with [X : ~ someWanted _ _ _ |- _] => apply X end. exists i', d'. split; [apply F'|]. split; [exact I'|]. rewrite u64_bit by lia. exact B.
      * destruct (firstType_unique prefers ts 0 _ _ _ _ _ _ _ FT F') as (-> & -> & ->). rewrite u64_bit in B1 by lia. congruence.
      * destruct (firstType_unique prefers ts 0 _ _ _ _ _ _ _ FT F') as (-> & -> & ->). lia.
      * destruct X1 as [X|(i & d & X)]; [pose proof (X _ _ (ft_type _ _ _ _ _ _ _ F')) as Y; rewrite (ft_match _ _ _ _ _ _ _ F') in Y; discriminate|]. destruct (firstType_unique prefers ts 0 _ _ _ _ _ _ _ X F') as (_ & _ & <-). lia.
Qed.
Lemma willing_ok : (exists i d, zget ts i = Some d /\ gtRe d <> [] /\ i < 64) -> PredictSpec.willing c (ofLexer prefers ts) fair (view []) eoiToken.
Proof.
  intros (i0 & d0 & G0 & R0 & L0). constructor.
  - apply source_ok.
  - exact fair_fetch.
  - intros src t (toks & Q) I0. rewrite (queue_view content prefers PO ts [] _ _ Q (items_range src)) in I0. eapply queue_ofLexer; eauto.
  - right. right. reflexivity.
  - intros t [(text & d & n & F & N & I & _)|[X|X]]; unfold PredictSpec.known; rewrite (ot_type _ _ _ _ _ _ OT); [left|right; left; exact X|right; right; exact X].
    destruct (firstType_range prefers PO ts _ _ _ _ F). split; [lia|]. destruct (ft_type _ _ _ _ _ _ _ F) as (GD & RE & _). exists d. auto.
  - exists i0. split; [exact L0|]. split; [exists d0; auto|]. change Parser.AllTokenTypes with (Z.ones 64). apply Z.ones_spec_low. apply zget_range in G0. lia.
  - exact fair_wanted.
Qed.
End C.
