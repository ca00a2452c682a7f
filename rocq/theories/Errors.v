(** Model of error values: /repo/llx.go:32-99, /repo/lexer/lexer.go:24-31, 78-86, /repo/parser/errors.go, /repo/langdef/errors.go,
    /repo/parser/layers/common/errors.go.
    - Strings are lists of bytes.
    - fmt.Sprintf is the documented behaviour of the standard library for the verbs that are used here (%s, %q, %d, %c, %x without flags, widths
      and precisions) and for mistakes in their use; strconv.IsPrint is a parameter.  An integer argument stands for int and for rune (they differ
      only in messages about extra arguments). *)
From Coq Require Import String ZArith List Bool.
From Verif Require Import Base Utf8 LangString Gen Lexer Source.
From Verif Require LangText Parser.
Import ListNotations.
Local Open Scope string_scope.
Local Open Scope list_scope.
Open Scope Z_scope.
Notation text := (list Z).

(** llx.go:41-56 *)
Record llxError := mkLlxError { eCode : Z; eMessage : text; eSourceName : text; eLine : Z; eCol : Z }.
(** llx.go:32-38 *)
Definition LangDefErrors : Z := 1.
Definition LexicalErrors : Z := 101.
Definition SyntaxErrors : Z := 201.
Definition ParserErrors : Z := 301.
Definition LayerErrors : Z := 401.

(** ** fmt.Sprintf *)
Inductive arg := AString (s : text) | AInt (n : Z).
(** %x of a number *)
Fixpoint hexes (fuel : nat) (n : Z) : text :=
  match fuel with
  | O => []
  | S f => if n <? 16 then [hexChar n] else hexes f (n / 16) ++ [hexChar (n mod 16)]
  end.
Definition hexOf (n : Z) : text := if n <? 0 then 45 :: hexes 16 (- n) else hexes 16 n.
(** runes that are not valid are printed as the replacement character *)
Definition runeText (r : Z) : text := encodeRune (if validRune r then r else RuneError).
Section Sprintf.
Variable isPrint : Z -> bool.
(** %q of a number: a rune literal *)
Definition quoteChar (r : Z) : text :=
  let r := if validRune r then r else RuneError in
  [39] ++ (if r =? 39 then [92; 39] else if r =? 34 then [34] else quoteRune isPrint r) ++ [39].
Definition argType (a : arg) : text := match a with AString _ => bytes "string" | AInt _ => bytes "int" end.
(** %v *)
Definition argText (a : arg) : text := match a with AString s => s | AInt n => dec n end.
Definition verb (v : Z) (a : arg) : text :=
  match a with
  | AString s =>
      if v =? 115 then s
      else if v =? 113 then quote isPrint s
      else if v =? 120 then concat (map (hex 2) s)
      else bytes "%!" ++ [v] ++ bytes "(string=" ++ s ++ bytes ")"
  | AInt n =>
      if v =? 100 then dec n
      else if v =? 99 then runeText n
      else if v =? 113 then quoteChar n
      else if v =? 120 then hexOf n
      else bytes "%!" ++ [v] ++ bytes "(int=" ++ dec n ++ bytes ")"
  end.
Fixpoint extras (args : list arg) : text :=
  match args with
  | [] => []
  | [a] => argType a ++ bytes "=" ++ argText a
  | a :: r => argType a ++ bytes "=" ++ argText a ++ bytes ", " ++ extras r
  end.
Fixpoint sprintf (f : text) (args : list arg) : text :=
  match f with
  | [] => match args with [] => [] | _ => bytes "%!(EXTRA " ++ extras args ++ bytes ")" end
  | c :: r =>
      if c =? 37 then
        match r with
        | [] => bytes "%!(NOVERB)" ++ match args with [] => [] | _ => bytes "%!(EXTRA " ++ extras args ++ bytes ")" end
        | v :: r' =>
            if v =? 37 then 37 :: sprintf r' args
            else match args with
                 | [] => bytes "%!" ++ [v] ++ bytes "(MISSING)" ++ sprintf r' []
                 | a :: args => verb v a ++ sprintf r' args
                 end
        end
      else c :: sprintf r args
  end.

(** ** llx.go *)
(** llx.go:69-74 *)
Definition newError (code : Z) (msg name : text) (line col : Z) : llxError :=
  let msg := if negb (zlen name =? 0) && negb (line =? 0) && negb (col =? 0)
             then msg ++ sprintf (bytes " in %s at line %d col %d") [AString name; AInt line; AInt col] else msg in
  mkLlxError code msg name line col.
Definition formatted (msg : text) (params : list arg) : text := if 0 <? zlen params then sprintf msg params else msg.
(** llx.go:83-88 *)
Definition formatError (code : Z) (msg : text) (params : list arg) : llxError := newError code (formatted msg params) [] 0 0.
(** what tokens give for errors: Type, TypeName, Text, SourceName, LineCol (lexer/token.go:19-62, source.go:163-184) *)
Record etok := mkEtok { etType : Z; etTypeName : text; etText : text; etSourceName : text; etLine : Z; etCol : Z }.
(** llx.go:93-99 *)
Definition formatErrorPos (pos : etok) (code : Z) (msg : text) (params : list arg) : llxError :=
  newError code (formatted msg params) (etSourceName pos) (etLine pos) (etCol pos).

(** ** lexer/lexer.go *)
(** lexer.go:24-31 *)
Definition WrongCharError : Z := LexicalErrors.
Definition BadTokenError : Z := LexicalErrors + 1.
(** lexer.go:78-82; [content] is not empty *)
Definition wrongCharError (name content : text) (line col : Z) : llxError :=
  let (r, _) := decodeRune content in
  newError WrongCharError (sprintf (bytes "wrong char ""%c"" (u+%x)") [AInt r; AInt r]) name line col.
(** lexer.go:84-86 *)
Definition badTokenError (t : etok) : llxError := formatErrorPos t BadTokenError (bytes "bad token %q") [AString (etText t)].

(** ** parser/errors.go *)
(** errors.go:9-30 *)
Definition UnexpectedEoiError : Z := SyntaxErrors.
Definition UnexpectedTokenError : Z := SyntaxErrors + 1.
Definition EmitWrongTokenError : Z := ParserErrors.
Definition UnknownTokenTypeError : Z := ParserErrors + 1.
Definition UnknownNodeError : Z := ParserErrors + 2.
Definition LayerRegisteredError : Z := ParserErrors + 3.
Definition UnknownLayerError : Z := ParserErrors + 4.
Definition RemainingSourceError : Z := ParserErrors + 5.
(** errors.go:38-41, common/errors.go:57-60 *)
Definition shortText (s : text) : text := if 10 <? zlen s then firstn 7 s ++ bytes "..." else s.
(** errors.go:32-34 *)
Definition unexpectedEofError (t : etok) (expected : text) : llxError :=
  formatErrorPos t UnexpectedEoiError (bytes "unexpected end of input, expecting %s") [AString expected].
(** errors.go:36-42 *)
Definition unexpectedTokenError (t : etok) (expected : text) : llxError :=
  formatErrorPos t UnexpectedTokenError (bytes "unexpected %q token (%q), expecting %s") [AString (etTypeName t); AString (shortText (etText t)); AString expected].
(** errors.go:44-46 *)
Definition emitWrongTokenError (t : etok) : llxError :=
  formatErrorPos t EmitWrongTokenError (bytes "cannot emit %q token (type %d)") [AString (etTypeName t); AInt (etType t)].
(** errors.go:48-50 *)
Definition unknownTokenTypeError (n : text) : llxError := formatError UnknownTokenTypeError (bytes "unknown token type key: %q") [AString n].
(** errors.go:52-54 *)
Definition unknownNodeError (n : text) : llxError := formatError UnknownNodeError (bytes "unknown node key: %q") [AString n].
(** errors.go:56-58 *)
Definition layerRegisteredError (n : text) : llxError := formatError LayerRegisteredError (bytes "layer %q already registered") [AString n].
(** errors.go:60-62 *)
Definition unknownLayerError (n : text) : llxError := formatError UnknownLayerError (bytes "layer %q is not registered") [AString n].
(** errors.go:64-66 *)
Definition remainingSourceError (t : etok) : llxError :=
  formatErrorPos t RemainingSourceError (bytes "got %q token after end of source") [AString (etTypeName t)].

(** ** parser/layers/common/errors.go *)
(** common/errors.go:12-27 *)
Definition UnknownCommandError : Z := LayerErrors.
Definition MissingCommandError : Z := LayerErrors + 1.
Definition NumberOfArgumentsError : Z := LayerErrors + 2.
Definition InvalidArgumentError : Z := LayerErrors + 3.
Definition CommandAlreadyUsedError : Z := LayerErrors + 4.
Definition LayerTokenTypeError : Z := LayerErrors + 5.
Definition LayerWrongTokenError : Z := LayerErrors + 6.
(** common/errors.go:29-31 *)
Definition MakeUnknownCommandError (layer command : text) : llxError :=
  formatError UnknownCommandError (bytes "unknown command %q for %q layer") [AString command; AString layer].
(** common/errors.go:33-35 *)
Definition MakeMissingCommandError (layer command : text) : llxError :=
  formatError MissingCommandError (bytes "missing required command %q for %q layer") [AString command; AString layer].
(** common/errors.go:37-40 *)
Definition MakeNumberOfArgumentsError (layer command : text) (expected got : Z) : llxError :=
  formatError NumberOfArgumentsError (bytes "wrong number of arguments for %q command for %q layer: expecting %d, got %d") [AString command; AInt expected; AInt got].
(** common/errors.go:42-45 *)
Definition MakeInvalidArgumentError (layer command argument reason : text) : llxError :=
  formatError InvalidArgumentError (bytes "invalid %q argument for %q command for %q layer: %s") [AString argument; AString command; AString layer; AString reason].
(** common/errors.go:47-49 *)
Definition MakeCommandAlreadyUsedError (layer command : text) : llxError :=
  formatError CommandAlreadyUsedError (bytes "%q command for %q layer already used") [AString command; AString layer].
(** common/errors.go:51-54 *)
Definition MakeUnknownTokenTypeError (layer command typeName : text) : llxError :=
  formatError LayerTokenTypeError (bytes "unknown token type %q for %q command for %q layer") [AString typeName; AString command; AString layer].
(** common/errors.go:56-64 *)
Definition MakeWrongTokenError (layer : text) (t : etok) (reason : text) : llxError :=
  formatErrorPos t LayerWrongTokenError (bytes "wrong %s (%q) token for %q layer: %s") [AString (etTypeName t); AString (shortText (etText t)); AString layer; AString reason].

(** ** langdef/errors.go *)
(** errors.go:11-54: [LangDefErrors + iota] *)
Definition langCode (i : Z) : Z := LangDefErrors + i.
(** strings.Join(names, ", ") *)
Fixpoint joinNames (names : list text) : text :=
  match names with
  | [] => []
  | [n] => n
  | n :: r => n ++ bytes ", " ++ joinNames r
  end.
(** errors.go:56-58 *)
Definition eofError (t : etok) : llxError := formatErrorPos t (langCode 0) (bytes "unexpected EoF") [].
(** errors.go:60-62 *)
Definition langUnexpectedTokenError (t : etok) : llxError := formatErrorPos t (langCode 1) (bytes "unexpected %s token") [AString (etTypeName t)].
(** errors.go:64-66 *)
Definition tokenError (t : etok) : llxError := formatErrorPos t (langCode 2) (bytes "unknown token %q ") [AString (etText t)].
(** errors.go:68-70 *)
Definition wrongTokenError (t : etok) : llxError := formatErrorPos t (langCode 3) (bytes "cannot use token %q in definitions") [AString (etText t)].
(** errors.go:72-74 *)
Definition defTokenError (t : etok) : llxError := formatErrorPos t (langCode 4) (bytes "token %q already defined") [AString (etText t)].
(** errors.go:76-78 *)
Definition defNodeError (t : etok) : llxError := formatErrorPos t (langCode 5) (bytes "node %q already defined") [AString (etText t)].
(** errors.go:80-82 *)
Definition regexpError (t : etok) (e : text) : llxError := formatErrorPos t (langCode 6) (bytes "incorrect RegExp %s (%s)") [AString (etText t); AString e].
(** errors.go:84-86 *)
Definition langUnknownNodeError (names : list text) : llxError := formatError (langCode 7) (bytes "undefined nodes: " ++ joinNames names) [].
(** errors.go:88-90 *)
Definition unusedNodeError (names : list text) : llxError := formatError (langCode 8) (bytes "unused nodes: " ++ joinNames names) [].
(** errors.go:92-94 *)
Definition unresolvedError (names : list text) : llxError := formatError (langCode 9) (bytes "cannot resolve dependencies for nodes: " ++ joinNames names) [].
(** errors.go:96-98 *)
Definition recursionError (names : list text) : llxError := formatError (langCode 10) (bytes "found left-recursive nodes: " ++ joinNames names) [].
(** errors.go:100-102 *)
Definition tokenTypeNumberError (t : etok) : llxError := formatErrorPos t (langCode 11) (bytes "too many token types") [].
(** errors.go:104-106 *)
Definition unresolvedTokenTypesError (s : text) : llxError := formatError (langCode 12) (bytes "cannot detect token groups for %q literal") [AString s].
(** errors.go:108-110 *)
Definition undefinedTokenError (n : text) : llxError := formatError (langCode 13) (bytes "token %q mentioned but not defined") [AString n].
(** errors.go:112-114 *)
Definition unknownLiteralError (s : text) : llxError := formatError (langCode 14) (bytes "cannot use %q literal: it is not whitelisted") [AString s].
(** errors.go:116-118 *)
Definition reassignedGroupError (n : text) : llxError := formatError (langCode 15) (bytes "cannot move %q token to another group again") [AString n].
(** errors.go:120-122 *)
Definition invalidEscapeError (t : etok) (s : text) : llxError := formatErrorPos t (langCode 16) (bytes "invalid backslash escape: %q") [AString s].
(** errors.go:124-126 *)
Definition invalidRuneError (t : etok) (s : text) : llxError := formatErrorPos t (langCode 17) (bytes "invalid hexadecimal rune code: %q") [AString s].
(** errors.go:128-130 *)
Definition templateDefinedError (t : etok) (n : text) : llxError := formatErrorPos t (langCode 18) (bytes "template %q already defined") [AString n].
(** errors.go:132-134 *)
Definition unknownTemplateError (t : etok) (n : text) : llxError := formatErrorPos t (langCode 19) (bytes "unknown template: %q") [AString n].
(** errors.go:136-138 *)
Definition unknownDirectiveError (t : etok) : llxError := formatErrorPos t (langCode 20) (bytes "unknown directive: %s") [AString (etText t)].
End Sprintf.

(** ** Tokens *)
Section Tokens.
Context {S : Type}.
(** source.go: Name; what a source is now: LineCol changes it (see Source.v) *)
Variable sourceName : S -> text.
Variable sourceNow : S -> src.
(** source.go:163-184 *)
Definition whereIs (s : option S) (pos : Z) : option (text * (Z * Z)) :=
  match s with
  | None => Some ([], (0, 0))
  | Some s => do (s', lc) <- lineCol (sourceNow s) pos ; Some (sourceName s, lc)
  end.
(** lexer/token.go:19-62; names of types are strings of Coq *)
Definition tokenInfo (t : token S) : option etok :=
  do w <- whereIs (tokSource t) (tokPos t) ;
  Some (mkEtok (tokType t) (bytes (tokName t)) (tokContent t) (fst w) (fst (snd w)) (snd (snd w))).
(** lexer.go:88-114: the text starts at the offset of the error *)
Variable content : S -> text.
Variable isPrint : Z -> bool.
Definition lexErrorValue (e : lexError S) : option llxError :=
  match e with
  | WrongChar s pos _ => do w <- whereIs (Some s) pos ; Some (wrongCharError isPrint (sourceName s) (skipn (Z.to_nat pos) (content s)) (fst (snd w)) (snd (snd w)))
  | BadToken t => do i <- tokenInfo t ; Some (badTokenError isPrint i)
  end.
(** parser.go:496-512, 546, 710: what the errors made by the parser are; errors of hooks and lexers are returned as they are *)
Definition parserErrorValue {E} (e : Parser.err (token S) E) : option llxError :=
  match e with
  | Parser.External _ => None
  | Parser.UnexpectedEoi t x => do i <- tokenInfo t ; Some (unexpectedEofError isPrint i x)
  | Parser.UnexpectedToken t x => do i <- tokenInfo t ; Some (unexpectedTokenError isPrint i x)
  | Parser.EmitWrongToken t => do i <- tokenInfo t ; Some (emitWrongTokenError isPrint i)
  | Parser.RemainingSource t => do i <- tokenInfo t ; Some (remainingSourceError isPrint i)
  end.
End Tokens.
