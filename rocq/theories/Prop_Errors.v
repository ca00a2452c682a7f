(** C66: error values tell what went wrong and where. *)
From Coq Require Import String ZArith List Bool Lia Permutation.
From Verif Require Import Base BaseProofs Utf8 LangString LangStringSpec Gen GoSpec GenProofs Source SourceSpec Lexer Errors ErrorsSpec ErrorsProofs.
From Verif Require LangText.
Import ListNotations.
Local Open Scope string_scope.
Local Open Scope list_scope.
Open Scope Z_scope.

Section P.
Variable isPrint : Z -> bool.
(** strconv.IsPrint: control characters and the byte order mark are not printable. *)
Hypothesis PR : forall r, isPrint r = true -> 32 <= r /\ r <> 65279.
Ltac fine := repeat (apply Forall_cons; [cbn [pieceOk]; first [reflexivity|exact Logic.I|assumption|apply bytes_ok|apply short_bytes; assumption|idtac]|]); try apply Forall_nil.

(** *** Errors of parsers and lexers *)
Section T.
Context {S : Type} (content : S -> text) (sourceName : S -> text) (sourceNow : S -> src).
Hypothesis US : usedSources content sourceNow.
Hypothesis SZ : forall s, zlen (content s) < 2 ^ 63 - 1.
Notation place t := (placeOf content sourceName (tokSource t) (tokPos t)).
(** tokens: their texts are bytes, their types are ints *)
Definition tokOk (t : token S) : Prop := Forall byteZ (tokContent t) /\ goInt (tokType t).
Lemma info_ok t : exists i, tokenInfo sourceName sourceNow t = Some i /\ etType i = tokType t /\ etTypeName i = bytes (tokName t) /\ etText i = tokContent t /\ placeOfTok i = place t.
Proof.
  unfold tokenInfo. rewrite (where_is content sourceName sourceNow US). cbn [obind]. eexists. split; [reflexivity|]. cbn. repeat (split; [reflexivity|]). unfold placeOfTok. cbn. destruct (place t). reflexivity.
Qed.
Notation value := (parserErrorValue sourceName sourceNow isPrint).
(** Whatever lines and columns were asked for before: the values of errors made by a parser have codes by their kinds, and the place of the token
    they are about (none for tokens without sources); messages say what happened, and where, if the source has a name. *)
Theorem parser_error_value {E} (e : Parser.err (token S) E) :
  match e with
  | Parser.External _ => value e = None
  | Parser.UnexpectedEoi t x => tokOk t -> exists v, value e = Some v /\ tells v 201 (place t) [Says "unexpected end of input, expecting "; Plain x]
  | Parser.UnexpectedToken t x => tokOk t -> exists v u, value e = Some v /\ shortened (tokContent t) u /\
      tells v 202 (place t) [Says "unexpected "; Quoted (bytes (tokName t)); Says " token ("; Quoted u; Says "), expecting "; Plain x]
  | Parser.EmitWrongToken t => tokOk t -> exists v, value e = Some v /\ tells v 301 (place t) [Says "cannot emit "; Quoted (bytes (tokName t)); Says " token (type "; Number (tokType t); Says ")"]
  | Parser.RemainingSource t => tokOk t -> exists v, value e = Some v /\ tells v 306 (place t) [Says "got "; Quoted (bytes (tokName t)); Says " token after end of source"]
  end.
Proof.
  destruct e as [e|t x|t x|t|t]; [reflexivity|..]; intros (TB & TI); cbn [parserErrorValue]; destruct (info_ok t) as (i & -> & I1 & I2 & I3 & IP); cbn [obind]; pose proof (place_ok content sourceName SZ (tokSource t) (tokPos t)) as PO; rewrite <- IP in *.
  - eexists. split; [reflexivity|]. apply (formatErrorPos_tells isPrint PR i 201 [Says "unexpected end of input, expecting "; Plain x] PO); [fine|discriminate].
  - eexists. exists (shortText (tokContent t)). split; [reflexivity|]. split; [apply short_ok|]. unfold unexpectedTokenError. rewrite I2, I3.
    apply (formatErrorPos_tells isPrint PR i 202 [Says "unexpected "; Quoted (bytes (tokName t)); Says " token ("; Quoted (shortText (tokContent t)); Says "), expecting "; Plain x] PO); [fine|discriminate].
  - eexists. split; [reflexivity|]. unfold emitWrongTokenError. rewrite I2, I1.
    apply (formatErrorPos_tells isPrint PR i 301 [Says "cannot emit "; Quoted (bytes (tokName t)); Says " token (type "; Number (tokType t); Says ")"] PO); [fine|discriminate].
  - eexists. split; [reflexivity|]. unfold remainingSourceError. rewrite I2.
    apply (formatErrorPos_tells isPrint PR i 306 [Says "got "; Quoted (bytes (tokName t)); Says " token after end of source"] PO); [fine|discriminate].
Qed.
(** Errors of lexers: a wrong character (the first rune of the rest of the source), a bad token *)
Theorem lexer_error_value (e : lexError S) :
  match e with
  | WrongChar s pos r => 0 <= pos < zlen (content s) -> Forall byteZ (content s) -> r = fst (decodeRune (skipn (Z.to_nat pos) (content s))) ->
      exists v, lexErrorValue sourceName sourceNow content isPrint e = Some v /\ tells v 101 (placeOf content sourceName (Some s) pos) [Says "wrong char """; Char r; Says """ (u+"; Hexadecimal r; Says ")"]
  | BadToken t => tokOk t -> exists v, lexErrorValue sourceName sourceNow content isPrint e = Some v /\ tells v 102 (place t) [Says "bad token "; Quoted (tokContent t)]
  end.
Proof.
  destruct e as [s pos r|t].
  - intros P B ->. unfold lexErrorValue. rewrite (where_is content sourceName sourceNow US). cbn [obind fst snd]. eexists. split; [reflexivity|]. unfold wrongCharError.
    assert (N : skipn (Z.to_nat pos) (content s) <> []). { intros X. apply (f_equal (@List.length Z)) in X. rewrite skipn_length in X. unfold zlen in P. cbn in X. lia. }
    assert (BS : Forall byteZ (skipn (Z.to_nat pos) (content s))). { rewrite <- (firstn_skipn (Z.to_nat pos) (content s)) in B. apply Forall_app in B. apply B. }
    assert (AR : aRune (fst (decodeRune (skipn (Z.to_nat pos) (content s))))).
    { pose proof (decode_ok _ BS N) as D. destruct (decodeRune (skipn (Z.to_nat pos) (content s))) as (r, w). cbn [fst]. destruct D as [(_ & -> & _)|(V & _)]; [unfold aRune, RuneError; lia|].
      unfold validRune, between in V. rewrite orb_true_iff, !andb_true_iff, !Z.leb_le in V. unfold aRune. lia. }
    destruct (decodeRune (skipn (Z.to_nat pos) (content s))) as (r, w). cbn [fst] in *. apply (newError_tells isPrint PR 101 _ _ (placeOf content sourceName (Some s) pos)); [apply (place_ok content sourceName SZ)|].
    apply (sprintf_all isPrint PR [Says "wrong char """; Char r; Says """ (u+"; Hexadecimal r; Says ")"]). fine. unfold aRune in AR. change (2 ^ 63) with 9223372036854775808. lia.
  - intros (TB & TI). unfold lexErrorValue. destruct (info_ok t) as (i & -> & I1 & I2 & I3 & IP); cbn [obind]; pose proof (place_ok content sourceName SZ (tokSource t) (tokPos t)) as PO; rewrite <- IP in *.
    eexists. split; [reflexivity|]. unfold badTokenError. rewrite I3. apply (formatErrorPos_tells isPrint PR i 102 [Says "bad token "; Quoted (tokContent t)] PO); [fine|discriminate].
Qed.
End T.

(** *** Errors of makers of parsers *)
Theorem key_errors n : Forall byteZ n ->
  tells (unknownTokenTypeError isPrint n) 302 nowhere [Says "unknown token type key: "; Quoted n] /\
  tells (unknownNodeError isPrint n) 303 nowhere [Says "unknown node key: "; Quoted n] /\
  tells (layerRegisteredError isPrint n) 304 nowhere [Says "layer "; Quoted n; Says " already registered"] /\
  tells (unknownLayerError isPrint n) 305 nowhere [Says "layer "; Quoted n; Says " is not registered"].
Proof.
  intros B. repeat split.
  - apply (formatError_tells isPrint PR 302 [Says "unknown token type key: "; Quoted n]); [fine|discriminate].
  - apply (formatError_tells isPrint PR 303 [Says "unknown node key: "; Quoted n]); [fine|discriminate].
  - apply (formatError_tells isPrint PR 304 [Says "layer "; Quoted n; Says " already registered"]); [fine|discriminate].
  - apply (formatError_tells isPrint PR 305 [Says "layer "; Quoted n; Says " is not registered"]); [fine|discriminate].
Qed.

(** *** Errors of standard hook layers *)
(** What they should say.  The place is that of the token for [MakeWrongTokenError]. *)
Theorem layer_errors_partial layer command argument reason : Forall byteZ layer -> Forall byteZ command -> Forall byteZ argument ->
  tells (MakeUnknownCommandError isPrint layer command) 401 nowhere [Says "unknown command "; Quoted command; Says " for "; Quoted layer; Says " layer"] /\
  tells (MakeMissingCommandError isPrint layer command) 402 nowhere [Says "missing required command "; Quoted command; Says " for "; Quoted layer; Says " layer"] /\
  tells (MakeInvalidArgumentError isPrint layer command argument reason) 404 nowhere
    [Says "invalid "; Quoted argument; Says " argument for "; Quoted command; Says " command for "; Quoted layer; Says " layer: "; Plain reason] /\
  tells (MakeCommandAlreadyUsedError isPrint layer command) 405 nowhere [Quoted command; Says " command for "; Quoted layer; Says " layer already used"] /\
  tells (MakeUnknownTokenTypeError isPrint layer command argument) 406 nowhere
    [Says "unknown token type "; Quoted argument; Says " for "; Quoted command; Says " command for "; Quoted layer; Says " layer"].
Proof.
  intros BL BC BA. split; [|split; [|split; [|split]]].
  - apply (formatError_tells isPrint PR 401 [Says "unknown command "; Quoted command; Says " for "; Quoted layer; Says " layer"]); [fine|discriminate].
  - apply (formatError_tells isPrint PR 402 [Says "missing required command "; Quoted command; Says " for "; Quoted layer; Says " layer"]); [fine|discriminate].
  - apply (formatError_tells isPrint PR 404 [Says "invalid "; Quoted argument; Says " argument for "; Quoted command; Says " command for "; Quoted layer; Says " layer: "; Plain reason]); [fine|discriminate].
  - apply (formatError_tells isPrint PR 405 [Quoted command; Says " command for "; Quoted layer; Says " layer already used"]); [fine|discriminate].
  - apply (formatError_tells isPrint PR 406 [Says "unknown token type "; Quoted argument; Says " for "; Quoted command; Says " command for "; Quoted layer; Says " layer"]); [fine|discriminate].
Qed.
Theorem layer_token_error layer (t : etok) reason : Forall byteZ layer -> Forall byteZ (etText t) -> placeOk (placeOfTok t) ->
  exists u, shortened (etText t) u /\ tells (MakeWrongTokenError isPrint layer t reason) 407 (placeOfTok t)
    [Says "wrong "; Plain (etTypeName t); Says " ("; Quoted u; Says ") token for "; Quoted layer; Says " layer: "; Plain reason].
Proof.
  intros BL BT PO. exists (shortText (etText t)). split; [apply short_ok|].
  apply (formatErrorPos_tells isPrint PR t 407 [Says "wrong "; Plain (etTypeName t); Says " ("; Quoted (shortText (etText t)); Says ") token for "; Quoted layer; Says " layer: "; Plain reason] PO); [fine|discriminate].
Qed.
(** A wrong number of arguments: the error should name the layer and tell both numbers.  It never does: the layer is not passed to the format. *)
Lemma reads_last n ps u : reads (ps ++ [Number n]) u -> exists v d, u = v ++ [decDigit d] /\ 0 <= d < 10.
Proof.
  intros R. remember (ps ++ [Number n]) as l eqn:E. revert ps E. induction R as [|p l a b SH R IH]; intros ps E; [destruct ps; discriminate|]. destruct ps as [|q ps].
  - injection E as -> ->. inversion R; subst. rewrite app_nil_r. clear - SH. inversion SH as [| | |n' u' N D|n' u' N D| |]; subst.
    + inversion D; subst; [exists [], n|exists u, d]; auto.
    + inversion D; subst; [exists [45], (- n)|exists (45 :: u), d]; auto.
  - injection E as -> ->. destruct (IH ps eq_refl) as (v & d & -> & D). exists (a ++ v), d. rewrite app_assoc. auto.
Qed.
Lemma verb_q a f l : sprintf isPrint (bytes "%q" ++ f) (a :: l) = verb isPrint 113 a ++ sprintf isPrint f l.
Proof. reflexivity. Qed.
Lemma verb_d a f l : sprintf isPrint (bytes "%d" ++ f) (a :: l) = verb isPrint 100 a ++ sprintf isPrint f l.
Proof. reflexivity. Qed.
Theorem arguments_error_refuted layer layer' command expected got :
  ~ tells (MakeNumberOfArgumentsError isPrint layer command expected got) 403 nowhere
      [Says "wrong number of arguments for "; Quoted command; Says " command for "; Quoted layer; Says " layer: expecting "; Number expected; Says ", got "; Number got] /\
  MakeNumberOfArgumentsError isPrint layer command expected got = MakeNumberOfArgumentsError isPrint layer' command expected got.
Proof.
  split; [|reflexivity]. intros (_ & _ & _ & _ & R). change (whereText nowhere) with (@nil piece) in R. rewrite app_nil_r in R.
  apply (reads_last got [Says "wrong number of arguments for "; Quoted command; Says " command for "; Quoted layer; Says " layer: expecting "; Number expected; Says ", got "]) in R as (v & d & E & D).
  assert (X : exists y, eMessage (MakeNumberOfArgumentsError isPrint layer command expected got) = y ++ [41]).
  { exists (bytes "wrong number of arguments for " ++ quote isPrint command ++ bytes " command for " ++ quoteChar isPrint expected ++ bytes " layer: expecting " ++ dec got ++ bytes ", got " ++ bytes "%!d(MISSING").
    change (eMessage (MakeNumberOfArgumentsError isPrint layer command expected got)) with
      (sprintf isPrint (bytes "wrong number of arguments for " ++ bytes "%q" ++ bytes " command for " ++ bytes "%q" ++ bytes " layer: expecting " ++ bytes "%d" ++ bytes ", got " ++ bytes "%d") [AString command; AInt expected; AInt got]).
    rewrite sprintf_words by reflexivity. rewrite (verb_q (AString command)). rewrite sprintf_words by reflexivity. rewrite (verb_q (AInt expected)). rewrite sprintf_words by reflexivity. rewrite (verb_d (AInt got)). rewrite sprintf_words by reflexivity.
    rewrite <- !app_assoc. reflexivity. }
  destruct X as (y & X). rewrite X in E. apply app_inj_tail in E as (_ & E). unfold decDigit in E. lia.
Qed.

(** *** Errors of descriptions *)
(** Errors about a token of a description: its place *)
Theorem description_token_errors (t : etok) n : Forall byteZ (etText t) -> Forall byteZ n -> placeOk (placeOfTok t) ->
  tells (eofError isPrint t) 1 (placeOfTok t) [Says "unexpected EoF"] /\
  tells (langUnexpectedTokenError isPrint t) 2 (placeOfTok t) [Says "unexpected "; Plain (etTypeName t); Says " token"] /\
  tells (tokenError isPrint t) 3 (placeOfTok t) [Says "unknown token "; Quoted (etText t); Says " "] /\
  tells (wrongTokenError isPrint t) 4 (placeOfTok t) [Says "cannot use token "; Quoted (etText t); Says " in definitions"] /\
  tells (defTokenError isPrint t) 5 (placeOfTok t) [Says "token "; Quoted (etText t); Says " already defined"] /\
  tells (defNodeError isPrint t) 6 (placeOfTok t) [Says "node "; Quoted (etText t); Says " already defined"] /\
  tells (regexpError isPrint t n) 7 (placeOfTok t) [Says "incorrect RegExp "; Plain (etText t); Says " ("; Plain n; Says ")"] /\
  tells (tokenTypeNumberError isPrint t) 12 (placeOfTok t) [Says "too many token types"] /\
  tells (invalidEscapeError isPrint t n) 17 (placeOfTok t) [Says "invalid backslash escape: "; Quoted n] /\
  tells (invalidRuneError isPrint t n) 18 (placeOfTok t) [Says "invalid hexadecimal rune code: "; Quoted n] /\
  tells (templateDefinedError isPrint t n) 19 (placeOfTok t) [Says "template "; Quoted n; Says " already defined"] /\
  tells (unknownTemplateError isPrint t n) 20 (placeOfTok t) [Says "unknown template: "; Quoted n] /\
  tells (unknownDirectiveError isPrint t) 21 (placeOfTok t) [Says "unknown directive: "; Plain (etText t)].
Proof.
  intros BT BN PO.
  split.
  { apply (formatErrorPos_words isPrint PR t 1 "unexpected EoF" PO). }
  split.
  { apply (formatErrorPos_tells isPrint PR t 2 [Says "unexpected "; Plain (etTypeName t); Says " token"] PO); [fine|discriminate]. }
  split.
  { apply (formatErrorPos_tells isPrint PR t 3 [Says "unknown token "; Quoted (etText t); Says " "] PO); [fine|discriminate]. }
  split.
  { apply (formatErrorPos_tells isPrint PR t 4 [Says "cannot use token "; Quoted (etText t); Says " in definitions"] PO); [fine|discriminate]. }
  split.
  { apply (formatErrorPos_tells isPrint PR t 5 [Says "token "; Quoted (etText t); Says " already defined"] PO); [fine|discriminate]. }
  split.
  { apply (formatErrorPos_tells isPrint PR t 6 [Says "node "; Quoted (etText t); Says " already defined"] PO); [fine|discriminate]. }
  split.
  { apply (formatErrorPos_tells isPrint PR t 7 [Says "incorrect RegExp "; Plain (etText t); Says " ("; Plain n; Says ")"] PO); [fine|discriminate]. }
  split.
  { apply (formatErrorPos_words isPrint PR t 12 "too many token types" PO). }
  split.
  { apply (formatErrorPos_tells isPrint PR t 17 [Says "invalid backslash escape: "; Quoted n] PO); [fine|discriminate]. }
  split.
  { apply (formatErrorPos_tells isPrint PR t 18 [Says "invalid hexadecimal rune code: "; Quoted n] PO); [fine|discriminate]. }
  split.
  { apply (formatErrorPos_tells isPrint PR t 19 [Says "template "; Quoted n; Says " already defined"] PO); [fine|discriminate]. }
  split.
  { apply (formatErrorPos_tells isPrint PR t 20 [Says "unknown template: "; Quoted n] PO); [fine|discriminate]. }
  apply (formatErrorPos_tells isPrint PR t 21 [Says "unknown directive: "; Plain (etText t)] PO); [fine|discriminate].
Qed.
(** Errors about names and literals of a description: no place *)
Theorem description_name_errors n : Forall byteZ n ->
  tells (unresolvedTokenTypesError isPrint n) 13 nowhere [Says "cannot detect token groups for "; Quoted n; Says " literal"] /\
  tells (undefinedTokenError isPrint n) 14 nowhere [Says "token "; Quoted n; Says " mentioned but not defined"] /\
  tells (unknownLiteralError isPrint n) 15 nowhere [Says "cannot use "; Quoted n; Says " literal: it is not whitelisted"] /\
  tells (reassignedGroupError isPrint n) 16 nowhere [Says "cannot move "; Quoted n; Says " token to another group again"].
Proof.
  intros BN.
  split.
  { apply (formatError_tells isPrint PR 13 [Says "cannot detect token groups for "; Quoted n; Says " literal"]); [fine|discriminate]. }
  split.
  { apply (formatError_tells isPrint PR 14 [Says "token "; Quoted n; Says " mentioned but not defined"]); [fine|discriminate]. }
  split.
  { apply (formatError_tells isPrint PR 15 [Says "cannot use "; Quoted n; Says " literal: it is not whitelisted"]); [fine|discriminate]. }
  apply (formatError_tells isPrint PR 16 [Says "cannot move "; Quoted n; Says " token to another group again"]); [fine|discriminate].
Qed.
(** Errors about lists of nodes: all the names, divided by ", "; no place *)
Fixpoint listed (names : list text) : list piece :=
  match names with [] => [] | [n] => [Plain n] | n :: r => Plain n :: Says ", " :: listed r end.
Lemma listed_ok names : reads (listed names) (joinNames names).
Proof.
  induction names as [|n [|m r] IH]; [constructor|cbn; rewrite <- (app_nil_r n) at 2; repeat constructor|]. change (listed (n :: m :: r)) with (Plain n :: Says ", " :: listed (m :: r)). change (joinNames (n :: m :: r)) with (n ++ bytes ", " ++ joinNames (m :: r)). repeat constructor. exact IH.
Qed.
Theorem description_list_errors names :
  tells (langUnknownNodeError isPrint names) 8 nowhere (Says "undefined nodes: " :: listed names) /\
  tells (unusedNodeError isPrint names) 9 nowhere (Says "unused nodes: " :: listed names) /\
  tells (unresolvedError isPrint names) 10 nowhere (Says "cannot resolve dependencies for nodes: " :: listed names) /\
  tells (recursionError isPrint names) 11 nowhere (Says "found left-recursive nodes: " :: listed names).
Proof.
  assert (X : forall code s, tells (formatError isPrint code (bytes s ++ joinNames names) []) code nowhere (Says s :: listed names)).
  { intros code s. apply (newError_tells isPrint PR code (Says s :: listed names) _ nowhere nowhere_ok). constructor; [constructor|apply listed_ok]. }
  repeat split; apply (X _ _).
Qed.

End P.

(** Sources "f" of the text "x y" LF "+ z"; LineCol(5) was called before. *)
Module Example1.
  Definition content (_ : unit) : text := bytes "x y" ++ [10] ++ bytes "+ z".
  Definition now (_ : unit) : src := match newSrc (content tt) with Some s => match lineCol s 5 with Some (s', _) => s' | None => s end | None => mkSrc [] [] 0 end.
  Example used_ok : usedSources content now.
  Proof. intros []. exists [Prop_Source.SLineCol 5]. eexists. eexists. split; vm_compute; reflexivity. Qed.
  Example short_ok s : zlen (content s) < 2 ^ 63 - 1. Proof. vm_compute. reflexivity. Qed.
  Definition ascii (r : Z) : bool := (32 <=? r) && (r <? 127).
  Example ascii_ok r : ascii r = true -> 32 <= r /\ r <> 65279.
  Proof. unfold ascii. rewrite andb_true_iff, Z.leb_le, Z.ltb_lt. lia. Qed.
  Definition plus : token unit := mkToken 2 "op" (bytes "+") (Some tt) 4.
  Example plus_ok : tokOk plus.
  Proof. split; [repeat constructor; cbn; lia|]. unfold goInt. cbn. lia. Qed.
  Example plus_at : placeOf content (fun _ => bytes "f") (tokSource plus) (tokPos plus) = mkPlace (bytes "f") 2 1.
  Proof. reflexivity. Qed.
  Example plus_error : parserErrorValue (fun _ => bytes "f") now ascii (Parser.UnexpectedToken (E := unit) plus (bytes "$name")) =
    Some (mkLlxError 202 (bytes "unexpected ""op"" token (""+""), expecting $name in f at line 2 col 1") (bytes "f") 2 1).
  Proof. vm_compute. reflexivity. Qed.
  Example char_error : lexErrorValue (fun _ => bytes "f") now content ascii (WrongChar tt 4 43) =
    Some (mkLlxError 101 (bytes "wrong char ""+"" (u+2b) in f at line 2 col 1") (bytes "f") 2 1).
  Proof. vm_compute. reflexivity. Qed.
  (** texts of more than 10 bytes are cut; no name, no place in the message *)
  Example long_error : parserErrorValue (fun _ => []) now ascii (Parser.UnexpectedToken (E := unit) (mkToken 2 "op" (bytes "abcdefghijk") (Some tt) 6) (bytes "+")) =
    Some (mkLlxError 202 (bytes "unexpected ""op"" token (""abcdefg...""), expecting +") [] 2 3).
  Proof. vm_compute. reflexivity. Qed.
  Example layer_error : eMessage (MakeUnknownCommandError ascii (bytes "convert") (bytes "a" ++ [34; 9])) = bytes "unknown command ""a\""\t"" for ""convert"" layer".
  Proof. vm_compute. reflexivity. Qed.
  (** layer "indent", command "x", 2 arguments expected, 3 given *)
  Example arguments_error : eMessage (MakeNumberOfArgumentsError ascii (bytes "indent") (bytes "x") 2 3) =
    bytes "wrong number of arguments for ""x"" command for '\x02' layer: expecting 3, got %!d(MISSING)".
  Proof. vm_compute. reflexivity. Qed.
  Example names_error : eMessage (unusedNodeError ascii [bytes "a"; bytes "b"; bytes "c"]) = bytes "unused nodes: a, b, c".
  Proof. vm_compute. reflexivity. Qed.
End Example1.
Print Assumptions parser_error_value.
Print Assumptions lexer_error_value.
Print Assumptions key_errors.
Print Assumptions layer_errors_partial.
Print Assumptions layer_token_error.
Print Assumptions arguments_error_refuted.
Print Assumptions description_token_errors.
Print Assumptions description_name_errors.
Print Assumptions description_list_errors.
