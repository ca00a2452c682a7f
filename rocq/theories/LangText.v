(** Model of /repo/langdef/parser.go, lines 74-136, 181-349 and 410-873: reading of a grammar description.
    - A description is the list of its tokens as the lexer of lines 153-179 takes them (spaces and comments are skipped), then
      either the end of the text (one end-of-file token, then end-of-input tokens for ever) or a text that cannot be split
      (an error, the same each time: lexer/lexer.go does not advance on errors).
    - Names of types of tokens are compared with the same strings as in the code; texts are lists of bytes; positions in the
      text are left out.
    - [regexp.Compile] succeeds: [compiles].
    - Go maps are lists of pairs, the index of nodes (a map from names to items) is the list of names: the index of a node is the
      index of its name (lines 747-749).
    - Sets [DependsOn] are computed from the definitions (LangNodes.v), so the name of the node being defined is not passed to
      [parseGroup] and so on. *)
From Coq Require Import ZArith List Bool String Ascii.
From Verif Require Import Base Grammar LangBuild LangString LangNodes LangTypes LangCompile.
Import ListNotations.
Open Scope Z_scope.

Definition bytes (s : string) : name := map (fun a => Z.of_nat (nat_of_ascii a)) (list_ascii_of_string s).

(** ** Tokens of descriptions *)
(** parser.go:155-165, lexer/token.go: end-of-file and end-of-input tokens *)
Inductive kind := KString | KName | KDir | KTemplate | KToken | KRegexp | KOp | KEof | KEoi.
(** parser.go:74-81; lexer/token.go:80-87 *)
Definition stringTok : name := Eval vm_compute in bytes "string".
Definition nameTok : name := Eval vm_compute in bytes "name".
Definition dirTok : name := Eval vm_compute in bytes "dir".
Definition templateNameTok : name := Eval vm_compute in bytes "template-name".
Definition tokenNameTok : name := Eval vm_compute in bytes "token-name".
Definition regexpTok : name := Eval vm_compute in bytes "regexp".
Definition opTok : name := Eval vm_compute in bytes "op".
Definition eofTok : name := Eval vm_compute in bytes "-eof-".
Definition eoiTok : name := Eval vm_compute in bytes "-eoi-".
Definition typeName (k : kind) : name :=
  match k with
  | KString => stringTok
  | KName => nameTok
  | KDir => dirTok
  | KTemplate => templateNameTok
  | KToken => tokenNameTok
  | KRegexp => regexpTok
  | KOp => opTok
  | KEof => eofTok
  | KEoi => eoiTok
  end.
Record tok := mkT { tKind : kind; tText : name }.
(** parser.go:89-100, 608 *)
Definition equTok : name := Eval vm_compute in bytes "=".
Definition commaTok : name := Eval vm_compute in bytes ",".
Definition semicolonTok : name := Eval vm_compute in bytes ";".
Definition pipeTok : name := Eval vm_compute in bytes "|".
Definition lBraceTok : name := Eval vm_compute in bytes "(".
Definition rBraceTok : name := Eval vm_compute in bytes ")".
Definition lSquareTok : name := Eval vm_compute in bytes "[".
Definition rSquareTok : name := Eval vm_compute in bytes "]".
Definition lCurlyTok : name := Eval vm_compute in bytes "{".
Definition rCurlyTok : name := Eval vm_compute in bytes "}".
Definition atTok : name := Eval vm_compute in bytes "@".
(** parser.go:102-110 *)
Definition sideDir : name := Eval vm_compute in bytes "!side".
Definition caselessDir : name := Eval vm_compute in bytes "!caseless".
Definition errorDir : name := Eval vm_compute in bytes "!error".
Definition externDir : name := Eval vm_compute in bytes "!extern".
Definition groupDir : name := Eval vm_compute in bytes "!group".
Definition literalDir : name := Eval vm_compute in bytes "!literal".
Definition reservedDir : name := Eval vm_compute in bytes "!reserved".

(** What follows the tokens: the end of the text, the end of input (the end of the text has been seen), a lexical error *)
Inductive tail := TEnd | TEoi | TWrong.

(** errors.go; the lexical error *)
Inductive readError :=
| RE_lexer
| RE_escape (text : name)
| RE_rune (text : name)
| RE_eof
| RE_unexpected (t : tok)
| RE_token (t : tok)
| RE_wrongToken (t : tok)
| RE_tokenDefined (t : tok)
| RE_nodeDefined (t : tok)
| RE_regexp (t : tok)
| RE_tokenNumber
| RE_undefinedToken (n : name)
| RE_unknownLiteral (n : name)
| RE_reassignedGroup (n : name)
| RE_templateDefined (n : name)
| RE_unknownTemplate (n : name)
| RE_unknownDirective (t : tok).

(** ** The context *)
Section Maps.
Context {V : Type}.
Fixpoint nget (k : name) (m : list (name * V)) : option V :=
  match m with
  | [] => None
  | (k', v) :: r => if nameEqb k k' then Some v else nget k r
  end.
(** m[k] = v *)
Definition nput (k : name) (v : V) (m : list (name * V)) : list (name * V) := (k, v) :: m.
(** delete(m, k) *)
Definition ndel (k : name) (m : list (name * V)) : list (name * V) := filter (fun p => negb (nameEqb k (fst p))) m.
End Maps.

(** parser.go:112-121 *)
Record extra := mkExtra { eName : name; eGroup : Z; eFlags : Z }.
(** parser.go:123-136 *)
Record ctx := mkCtx {
  cInput : list tok;
  cTail : tail;
  cSaved : option tok;
  cTokens : list gtoken;
  cLayers : list glayer;
  cNames : list name;
  cDefs : list (option chunk);
  cLiterals : list (name * Z);
  cTokenIndex : list (name * Z);
  cLiteralIndex : list (name * Z);
  cExtra : list extra;
  cExtraIndex : list (name * Z);
  cTemplates : list (name * name);
  cGroup : Z;
  cRestrictTypes : bool;
  cRestrictLiterals : bool
}.
(** assignments to fields *)
Definition setInput v t s c := mkCtx v t s (cTokens c) (cLayers c) (cNames c) (cDefs c) (cLiterals c) (cTokenIndex c) (cLiteralIndex c) (cExtra c) (cExtraIndex c) (cTemplates c) (cGroup c) (cRestrictTypes c) (cRestrictLiterals c).
Definition setTokens v c := mkCtx (cInput c) (cTail c) (cSaved c) v (cLayers c) (cNames c) (cDefs c) (cLiterals c) (cTokenIndex c) (cLiteralIndex c) (cExtra c) (cExtraIndex c) (cTemplates c) (cGroup c) (cRestrictTypes c) (cRestrictLiterals c).
Definition setLayers v c := mkCtx (cInput c) (cTail c) (cSaved c) (cTokens c) v (cNames c) (cDefs c) (cLiterals c) (cTokenIndex c) (cLiteralIndex c) (cExtra c) (cExtraIndex c) (cTemplates c) (cGroup c) (cRestrictTypes c) (cRestrictLiterals c).
Definition setNodes ns ds c := mkCtx (cInput c) (cTail c) (cSaved c) (cTokens c) (cLayers c) ns ds (cLiterals c) (cTokenIndex c) (cLiteralIndex c) (cExtra c) (cExtraIndex c) (cTemplates c) (cGroup c) (cRestrictTypes c) (cRestrictLiterals c).
Definition setLiterals v c := mkCtx (cInput c) (cTail c) (cSaved c) (cTokens c) (cLayers c) (cNames c) (cDefs c) v (cTokenIndex c) (cLiteralIndex c) (cExtra c) (cExtraIndex c) (cTemplates c) (cGroup c) (cRestrictTypes c) (cRestrictLiterals c).
Definition setTokenIndex v c := mkCtx (cInput c) (cTail c) (cSaved c) (cTokens c) (cLayers c) (cNames c) (cDefs c) (cLiterals c) v (cLiteralIndex c) (cExtra c) (cExtraIndex c) (cTemplates c) (cGroup c) (cRestrictTypes c) (cRestrictLiterals c).
Definition setLiteralIndex v c := mkCtx (cInput c) (cTail c) (cSaved c) (cTokens c) (cLayers c) (cNames c) (cDefs c) (cLiterals c) (cTokenIndex c) v (cExtra c) (cExtraIndex c) (cTemplates c) (cGroup c) (cRestrictTypes c) (cRestrictLiterals c).
Definition setExtra v i c := mkCtx (cInput c) (cTail c) (cSaved c) (cTokens c) (cLayers c) (cNames c) (cDefs c) (cLiterals c) (cTokenIndex c) (cLiteralIndex c) v i (cTemplates c) (cGroup c) (cRestrictTypes c) (cRestrictLiterals c).
Definition setTemplates v c := mkCtx (cInput c) (cTail c) (cSaved c) (cTokens c) (cLayers c) (cNames c) (cDefs c) (cLiterals c) (cTokenIndex c) (cLiteralIndex c) (cExtra c) (cExtraIndex c) v (cGroup c) (cRestrictTypes c) (cRestrictLiterals c).
Definition setGroup v c := mkCtx (cInput c) (cTail c) (cSaved c) (cTokens c) (cLayers c) (cNames c) (cDefs c) (cLiterals c) (cTokenIndex c) (cLiteralIndex c) (cExtra c) (cExtraIndex c) (cTemplates c) v (cRestrictTypes c) (cRestrictLiterals c).
Definition setRestrict a b c := mkCtx (cInput c) (cTail c) (cSaved c) (cTokens c) (cLayers c) (cNames c) (cDefs c) (cLiterals c) (cTokenIndex c) (cLiteralIndex c) (cExtra c) (cExtraIndex c) (cTemplates c) (cGroup c) a b.

(** Results of functions: a value, an error, a loop that did not end within the given number of steps, a panic *)
Inductive res (A : Type) :=
| ROk (x : A) (c : ctx)
| RFail (e : readError) (c : ctx)
| RHang
| RCrash.
Arguments ROk {A} x c. Arguments RFail {A} e c. Arguments RHang {A}. Arguments RCrash {A}.
Definition M (A : Type) := ctx -> res A.
Definition ret {A} (x : A) : M A := fun c => ROk x c.
Definition fail {A} (e : readError) : M A := fun c => RFail e c.
Definition hang {A} : M A := fun _ => RHang.
Definition bind {A B} (m : M A) (f : A -> M B) : M B :=
  fun c => match m c with ROk x c' => f x c' | RFail e c' => RFail e c' | RHang => RHang | RCrash => RCrash end.
Definition orCrash {A} (o : option A) : M A := fun c => match o with Some x => ROk x c | None => RCrash end.
Definition get {A} (f : ctx -> A) : M A := fun c => ROk (f c) c.
Definition modify (f : ctx -> ctx) : M unit := fun c => ROk tt (f c).
Notation "'let*' x := m 'in' k" := (bind m (fun x => k)) (at level 200, x pattern, m at level 99, k at level 200, right associativity).
Notation "m ;;; k" := (bind m (fun _ => k)) (at level 100, k at level 200, right associativity).
(** [token, _ = ...]: an error is dropped, the token is nil *)
Definition ignoreError {A} (m : M (option A)) : M (option A) :=
  fun c => match m c with RFail _ c' => ROk None c' | r => r end.
(** a loop over a slice *)
Fixpoint each {A} (f : A -> M unit) (l : list A) : M unit :=
  match l with
  | [] => ret tt
  | x :: r => f x ;;; each f r
  end.
(** text[1:], text[2:], text[1:len(text)-1] *)
Definition textFrom (n : Z) (t : name) : M name := orCrash (zslice t n (zlen t)).
Definition unquoted (t : name) : M name := orCrash (zslice t 1 (zlen t - 1)).

(** ** Fetching of tokens *)
(** parser.go:302-305 *)
Definition isEof (t : tok) : bool := match tKind t with KEof | KEoi => true | _ => false end.
(** llxLexer.Next(c.q) *)
Definition nextToken : M tok :=
  fun c => match cInput c with
           | t :: r => ROk t (setInput r (cTail c) (cSaved c) c)
           | [] => match cTail c with
                   | TEnd => ROk (mkT KEof []) (setInput [] TEoi (cSaved c) c)
                   | TEoi => ROk (mkT KEoi []) c
                   | TWrong => RFail RE_lexer c
                   end
           end.
(** parser.go:319-324, 351-408 *)
Definition processToken (t : tok) : M tok :=
  match tKind t with
  | KString =>
      match processString (tText t) with
      | SOk text => ret (mkT KString text)
      | SBadEscape text => fail (RE_escape text)
      | SBadRune text => fail (RE_rune text)
      | SStuck => hang
      | SPanic => orCrash None
      end
  | _ => ret t
  end.
(** parser.go:312-327 *)
Definition takeToken : M tok :=
  fun c => match cSaved c with
           | Some t => ROk t (setInput (cInput c) (cTail c) None c)
           | None => (let* t := nextToken in processToken t) c
           end.
(** parser.go:329-333 *)
Definition matches (types : list name) (t : tok) : bool := existsb (fun typ => nameEqb (typeName (tKind t)) typ || nameEqb (tText t) typ) types.
(** parser.go:294-300, 307-349; [None] is nil.  The saved token is nil at line 347 (see line 326), so [put] does not panic. *)
Definition fetch (types : list name) (strict : bool) : M (option tok) :=
  let* t := takeToken in
  if matches types t then ret (Some t)
  else if isEof t then (if strict then fail RE_eof else ret (Some t))
  else if strict then fail (RE_unexpected t)
  else modify (fun c => setInput (cInput c) (cTail c) (Some t) c) ;;; ret None.
(** a strict fetch does not return nil; a nil token would be dereferenced *)
Definition fetchStrict (types : list name) : M tok := let* o := fetch types true in orCrash o.
(** parser.go:414-434 *)
Fixpoint fetchAll (fuel : nat) (types : list name) : M (list tok) :=
  match fuel with
  | O => hang
  | S f =>
      let* o := fetch types false in
      match o with
      | None => ret []
      | Some t => let* l := fetchAll f types in ret (t :: l)
      end
  end.
(** parser.go:436-447 *)
Definition skipOne (typ : name) : M unit := fetch [typ] true ;;; ret tt.

(** ** Tokens and literals *)
(** parser.go:449-460 *)
Definition addToken (n re : name) (flags : Z) : M unit :=
  let* index := get cExtraIndex in
  let* t := match nget n index with
       | Some i => let* ex := get cExtra in let* t := orCrash (zget ex i) in modify (fun c => setExtra (cExtra c) (ndel n (cExtraIndex c)) c) ;;; ret t
       | None => ret (mkExtra [] 0 0)
       end in
  modify (fun c => setTokenIndex (nput n (zlen (cTokens c)) (cTokenIndex c)) (setTokens (cTokens c ++ [mkTok n re (eGroup t) (Z.lor flags (eFlags t))]) c)).
(** parser.go:462-468 *)
Definition addLiteralToken (n : name) (flags : Z) : M unit :=
  modify (fun c => match nget n (cLiteralIndex c) with
                   | Some _ => c
                   | None => setLiteralIndex (nput n (zlen (cLiterals c)) (cLiteralIndex c)) (setLiterals (cLiterals c ++ [(n, flags)]) c)
                   end).
(** parser.go:470-480 *)
Definition useLiteralToken (n : name) (flags : Z) : M Z :=
  let* index := get cLiteralIndex in
  match nget n index with
  | Some i => ret i
  | None =>
      let* i := get (fun c => zlen (cTokens c)) in
      modify (fun c => setLiteralIndex (nput n i (cLiteralIndex c)) (setTokens (cTokens c ++ [mkTok n [] 0 (Z.lor flags LiteralToken)]) c)) ;;;
      ret i
  end.
(** parser.go:482-490 *)
Definition addExtraToken (n : name) : M Z :=
  let* index := get cExtraIndex in
  match nget n index with
  | Some i => ret i
  | None =>
      let* i := get (fun c => zlen (cExtra c)) in
      modify (fun c => setExtra (cExtra c ++ [mkExtra n 0 0]) (nput n i (cExtraIndex c)) c) ;;;
      ret i
  end.
(** c.result.Tokens[i] = f(c.result.Tokens[i]), c.extraTokens[i] = f(c.extraTokens[i]) *)
Definition changeToken (i : Z) (f : gtoken -> gtoken) : M unit :=
  fun c => match zget (cTokens c) i with Some t => ROk tt (setTokens (upd (cTokens c) (Z.to_nat i) (f t)) c) | None => RCrash end.
Definition changeExtra (i : Z) (f : extra -> extra) : M unit :=
  fun c => match zget (cExtra c) i with Some t => ROk tt (setExtra (upd (cExtra c) (Z.to_nat i) (f t)) (cExtraIndex c) c) | None => RCrash end.
Definition tokFlag (flag : Z) (t : gtoken) : gtoken := mkTok (gtName t) (gtRe t) (gtGroup t) (Z.lor (gtFlags t) flag).
Definition extraFlag (flag : Z) (t : extra) : extra := mkExtra (eName t) (eGroup t) (Z.lor (eFlags t) flag).
(** parser.go:492-500 *)
Definition addTokenFlag (n : name) (flag : Z) : M unit :=
  let* index := get cTokenIndex in
  match nget n index with
  | Some i => changeToken i (tokFlag flag)
  | None => let* i := addExtraToken n in changeExtra i (extraFlag flag)
  end.

(** ** Directives *)
(** parser.go:522-545 *)
Definition parseTokenFlagDir (fuel : nat) (n : name) : M unit :=
  let* tokens := fetchAll fuel [tokenNameTok] in
  skipOne semicolonTok ;;;
  (let flag := if nameEqb n sideDir then SideToken else if nameEqb n caselessDir then CaselessToken else if nameEqb n externDir then ExternalToken
               else if nameEqb n errorDir then ErrorToken else 0 in
   each (fun t => let* n := textFrom 1 (tText t) in addTokenFlag n flag) tokens).
(** parser.go:547-570 *)
Definition groupToken (n : name) : M unit :=
  let* index := get cTokenIndex in
  let* g := get cGroup in
  match nget n index with
  | Some i =>
      let* ts := get cTokens in let* t := orCrash (zget ts i) in
      if gtGroup t =? 0 then changeToken i (fun t => mkTok (gtName t) (gtRe t) g (gtFlags t)) else fail (RE_reassignedGroup n)
  | None => let* i := addExtraToken n in changeExtra i (fun t => mkExtra (eName t) g (eFlags t))
  end.
Definition parseGroupDir (fuel : nat) : M unit :=
  let* tokens := fetchAll fuel [tokenNameTok] in
  skipOne semicolonTok ;;;
  modify (fun c => setGroup (cGroup c + 1) c) ;;;
  each (fun t => let* n := textFrom 1 (tText t) in groupToken n) tokens.
(** parser.go:572-585 *)
Definition parseReservedDir (fuel : nat) : M unit :=
  let* tokens := fetchAll fuel [stringTok] in
  skipOne semicolonTok ;;;
  each (fun t => let* n := unquoted (tText t) in addLiteralToken n ReservedToken) tokens.
(** parser.go:587-605 *)
Definition parseLiteralDir (fuel : nat) : M unit :=
  let* tokens := fetchAll fuel [stringTok; tokenNameTok] in
  skipOne semicolonTok ;;;
  each (fun t =>
    if nameEqb (typeName (tKind t)) tokenNameTok then
      modify (fun c => setRestrict true (cRestrictLiterals c) c) ;;;
      let* n := textFrom 1 (tText t) in addTokenFlag n NoLiteralsToken
    else
      modify (fun c => setRestrict (cRestrictTypes c) true c) ;;;
      let* n := unquoted (tText t) in addLiteralToken n 0) tokens.
(** parser.go:502-520 *)
Definition parseDir (fuel : nat) (t : tok) : M unit :=
  let n := tText t in
  if nameEqb n sideDir || nameEqb n caselessDir || nameEqb n externDir || nameEqb n errorDir then parseTokenFlagDir fuel n
  else if nameEqb n groupDir then parseGroupDir fuel
  else if nameEqb n reservedDir then parseReservedDir fuel
  else if nameEqb n literalDir then parseLiteralDir fuel
  else fail (RE_unknownDirective t).

(** ** Layers *)
(** parser.go:641-661: arguments *)
Fixpoint parseArgs (fuel : nat) : M (list name) :=
  match fuel with
  | O => hang
  | S f =>
      let* t := fetchStrict [stringTok; nameTok] in
      let* arg := (if nameEqb (typeName (tKind t)) stringTok then unquoted (tText t) else ret (tText t)) in
      let* t := fetchStrict [commaTok; rBraceTok] in
      if nameEqb (tText t) rBraceTok then ret [arg]
      else let* l := parseArgs f in ret (arg :: l)
  end.
(** parser.go:619-664: commands *)
Fixpoint parseCommands (fuel : nat) : M (list gcommand) :=
  match fuel with
  | O => hang
  | S f =>
      let* t := fetchStrict [nameTok; semicolonTok] in
      if nameEqb (typeName (tKind t)) opTok then ret []
      else
        skipOne lBraceTok ;;;
        let* o := ignoreError (fetch [rBraceTok] false) in
        let* args := match o with Some _ => ret [] | None => parseArgs f end in
        let* l := parseCommands f in
        ret (mkCmd (tText t) args :: l)
  end.
(** parser.go:607-668 *)
Definition parseLayerDef (fuel : nat) (t : tok) : M unit :=
  if negb (nameEqb (tText t) atTok) then fail (RE_unexpected t)
  else
    let* t := fetchStrict [nameTok] in
    let* l := parseCommands fuel in
    modify (fun c => setLayers (cLayers c ++ [mkLayer (tText t) l]) c).

(** ** Definitions of templates and token types *)
Section R.
Variable compiles : name -> bool.
(** parser.go:708-723 *)
Fixpoint joinRegexp (tokens : list tok) : M name :=
  match tokens with
  | [] => ret []
  | t :: r =>
      let* s := match tKind t with
           | KRegexp => unquoted (tText t)
           | KName => let* ts := get cTemplates in match nget (tText t) ts with Some s => ret s | None => fail (RE_unknownTemplate (tText t)) end
           | _ => ret []
           end in
      let* rest := joinRegexp r in ret (s ++ rest)
  end.
(** parser.go:696-732 *)
Definition fetchRegexp (fuel : nat) : M name :=
  let* tokens := fetchAll fuel [regexpTok; nameTok] in
  match tokens with
  | [] => fetch [regexpTok; nameTok] true ;;; ret []
  | t :: _ => let* re := joinRegexp tokens in if compiles re then ret re else fail (RE_regexp t)
  end.
(** parser.go:670-681 *)
Definition parseTemplateDef (fuel : nat) (n : name) : M unit :=
  skipOne equTok ;;;
  let* re := fetchRegexp fuel in
  skipOne semicolonTok ;;;
  modify (fun c => setTemplates (nput n re (cTemplates c)) c).
(** parser.go:683-694 *)
Definition parseTokenDef (fuel : nat) (n : name) : M unit :=
  skipOne equTok ;;;
  let* re := fetchRegexp fuel in
  skipOne semicolonTok ;;;
  addToken n re 0.

(** ** Definitions of nodes *)
(** c.result.NIndex[name] *)
Fixpoint nodeIndex (i : Z) (n : name) (names : list name) : option Z :=
  match names with
  | [] => None
  | n' :: r => if nameEqb n n' then Some i else nodeIndex (i + 1) n r
  end.
(** parser.go:734-751 *)
Definition addNode (n : name) (define : bool) : M Z :=
  let* names := get cNames in
  let group := if define then Some (CGroup false false []) else None in
  match nodeIndex 0 n names with
  | Some i =>
      let* defs := get cDefs in let* d := orCrash (zget defs i) in
      modify (fun c => setNodes (cNames c) (match d with None => upd (cDefs c) (Z.to_nat i) group | Some _ => cDefs c end) c) ;;;
      ret i
  | None =>
      modify (fun c => setNodes (cNames c ++ [n]) (cDefs c ++ [group]) c) ;;;
      ret (zlen names)
  end.
(** parser.go:18 *)
Definition unusedToken : Z := Z.lor SideToken ErrorToken.
(** parser.go:761-778, 780-806 (and the loop of lines 792-803), 808-873 *)
Fixpoint parseGroup (fuel : nat) : M (list chunk) :=
  match fuel with
  | O => hang
  | S f =>
      let* item := parseVariants f in
      let* o := fetch [commaTok] false in
      match o with
      | None => ret [item]
      | Some _ => let* l := parseGroup f in ret (item :: l)
      end
  end
with parseVariants (fuel : nat) : M chunk :=
  match fuel with
  | O => hang
  | S f =>
      let* ch := parseVariant f in
      let* o := fetch [pipeTok] false in
      match o with
      | None => ret ch
      | Some _ => let* l := parseMore f in ret (CVar (ch :: l))
      end
  end
with parseMore (fuel : nat) : M (list chunk) :=
  match fuel with
  | O => hang
  | S f =>
      let* ch := parseVariant f in
      let* o := fetch [pipeTok] false in
      match o with
      | None => ret [ch]
      | Some _ => let* l := parseMore f in ret (ch :: l)
      end
  end
with parseVariant (fuel : nat) : M chunk :=
  match fuel with
  | O => hang
  | S f =>
      let* t := fetchStrict [nameTok; tokenNameTok; stringTok; lBraceTok; lSquareTok; lCurlyTok] in
      match tKind t with
      | KName => let* i := addNode (tText t) false in ret (CNode i)
      | KToken =>
          let* n := textFrom 1 (tText t) in
          match n with
          | [] => ret CEoi
          | _ =>
              let* index := get cTokenIndex in
              match nget n index with
              | None => fail (RE_token t)
              | Some i =>
                  let* ts := get cTokens in let* gt := orCrash (zget ts i) in
                  if hasFlag (gtFlags gt) unusedToken then fail (RE_wrongToken t) else ret (CTok i)
              end
          end
      | KString =>
          let* n := unquoted (tText t) in
          let* index := get cLiteralIndex in
          match nget n index with
          | Some i => ret (CTok i)
          | None =>
              let* r := get cRestrictLiterals in
              if r then fail (RE_unknownLiteral n) else let* i := useLiteralToken n 0 in ret (CTok i)
          end
      | _ =>
          let repeated := nameEqb (tText t) lCurlyTok in
          let optional := negb (nameEqb (tText t) lBraceTok) in
          let lastToken := if repeated then rCurlyTok else if optional then rSquareTok else rBraceTok in
          let* l := parseGroup f in
          skipOne lastToken ;;;
          ret (CGroup optional repeated l)
      end
  end.
(** parser.go:753-759.  The group of the item is filled as it is read; nothing looks into it before it is complete. *)
Definition parseNodeDef (fuel : nat) (n : name) : M unit :=
  let* i := addNode n true in
  skipOne equTok ;;;
  let* l := parseGroup fuel in
  skipOne semicolonTok ;;;
  modify (fun c => setNodes (cNames c) (upd (cDefs c) (Z.to_nat i) (Some (CGroup false false l))) c).

(** ** The whole description *)
(** parser.go:200-240: returns the name token that ends the loop *)
Fixpoint readHead (fuel : nat) : M tok :=
  match fuel with
  | O => hang
  | S f =>
      let* t := fetchStrict [nameTok; dirTok; opTok; templateNameTok; tokenNameTok] in
      match tKind t with
      | KName => ret t
      | KDir => parseDir f t ;;; readHead f
      | KOp => parseLayerDef f t ;;; readHead f
      | KTemplate =>
          let* n := textFrom 2 (tText t) in
          let* ts := get cTemplates in
          match nget n ts with
          | Some _ => fail (RE_templateDefined n)
          | None => parseTemplateDef f n ;;; readHead f
          end
      | KToken =>
          let* n := textFrom 1 (tText t) in
          let* index := get cTokenIndex in
          let* has := match nget n index with
                 | Some i => let* ts := get cTokens in let* gt := orCrash (zget ts i) in ret (negb (nameEqb (gtRe gt) []))
                 | None => ret false
                 end in
          if has || nameEqb n [] then fail (RE_tokenDefined t) else parseTokenDef f n ;;; readHead f
      | _ => readHead f
      end
  end.
(** parser.go:258-264 *)
Fixpoint flipLiterals (ts : list gtoken) : list gtoken :=
  match ts with
  | [] => []
  | t :: r => if hasFlag (gtFlags t) LiteralToken then ts
              else mkTok (gtName t) (gtRe t) (gtGroup t) (Z.lxor (gtFlags t) NoLiteralsToken) :: flipLiterals r
  end.
(** parser.go:242-270 *)
Definition MaxTokenType : Z := 63.
Definition addExterns : M unit :=
  let* ex := get cExtra in
  each (fun et =>
    let* index := get cExtraIndex in
    match nget (eName et) index with
    | None => ret tt
    | Some _ => if hasFlag (eFlags et) ExternalToken then addToken (eName et) [] (eFlags et) else fail (RE_undefinedToken (eName et))
    end) ex.
Definition finishTokens : M unit :=
  let* n := get (fun c => zlen (cTokens c) + zlen (cExtra c)) in
  if n >=? MaxTokenType then fail RE_tokenNumber
  else
    addExterns ;;;
    modify (fun c => if cRestrictTypes c then setTokens (flipLiterals (cTokens c)) c else c) ;;;
    modify (setLiteralIndex []) ;;;
    let* lts := get cLiterals in
    each (fun lt => useLiteralToken (fst lt) (snd lt) ;;; ret tt) lts.
(** parser.go:272-289 *)
Fixpoint readNodes (fuel : nat) (t : tok) : M unit :=
  match fuel with
  | O => hang
  | S f =>
      if isEof t then ret tt
      else
        (if nameEqb (typeName (tKind t)) opTok then parseLayerDef f t
         else
           let* names := get cNames in
           (match nodeIndex 0 (tText t) names with
            | Some i => let* defs := get cDefs in let* d := orCrash (zget defs i) in match d with Some _ => fail (RE_nodeDefined t) | None => ret tt end
            | None => ret tt
            end) ;;;
           parseNodeDef f (tText t)) ;;;
        let* t := fetchStrict [nameTok; opTok; eofTok; eoiTok] in
        readNodes f t
  end.
(** parser.go:194-292; the result is in the context *)
Definition readDescription (fuel : nat) : M unit :=
  let* t := readHead fuel in
  finishTokens ;;;
  readNodes fuel t.
End R.

(** parser.go:181-192; result.go: newParseResult *)
Definition newContext (input : list tok) (end_ : tail) : ctx :=
  mkCtx input end_ None [] [] [] [] [] [] [] [] [] [] 0 false false.

(** ** All of it *)
(** What a caller gets: a grammar, an error; or the call does not return (within the given number of steps), or panics *)
Inductive answer :=
| AGrammar (g : grammar)
| AReadError (e : readError)
| ALiteralError (n : name)
| ANodesError (e : nodeError)
| ANever
| APanic.
(** parser.go:56-72; [orders]: the orders of loops over the index of nodes (a map) of that many nodes *)
Definition parseText (compiles : name -> bool) (fullMatch : name -> name -> bool) (toUpper : name -> name) (fuel : nat) (orders : nat -> list Z * list Z * list Z) (input : list tok) (end_ : tail) : answer :=
  match readDescription compiles fuel (newContext input end_) with
  | RFail e _ => AReadError e
  | RHang => ANever
  | RCrash => APanic
  | ROk _ c =>
      let '(o1, o2, o3) := orders (List.length (cDefs c)) in
      match compileDescription fullMatch toUpper fuel o1 o2 o3 (cTokens c) (cLayers c) (cNames c) (cDefs c) with
      | Compiled g => AGrammar g
      | BadLiteral n => ALiteralError n
      | BadNodes e => ANodesError e
      | Endless => ANever
      | Panic => APanic
      end
  end.
