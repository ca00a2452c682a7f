(** Model of the lexer of descriptions: /repo/langdef/parser.go, lines 74-83 and 153-179, and of calls to it (line 314). *)
From Coq Require Import String ZArith List Bool.
From Verif Require Import Base Utf8 Queue SourceQueue Lexer Grammar LangText Regexp.
Import ListNotations.
Open Scope Z_scope.

(** parser.go:156-165 *)
Definition descTypes : list (Z * string) :=
  [(1, "string"%string); (2, "name"%string); (3, "dir"%string); (4, "template-name"%string); (5, "token-name"%string);
   (6, "regexp"%string); (7, "op"%string); (ErrorTokenType, ""%string)].
(** classes of characters in the regular expression, parser.go:170-176 *)
Definition lowB (c : Z) : bool := between 97 122 c.
Definition letterB (c : Z) : bool := between 97 122 c || between 65 90 c || (c =? 95).
Definition nameB (c : Z) : bool := letterB c || between 48 57 c || (c =? 45).
(** parser.go:170, 172, 173: [a-zA-Z_][a-zA-Z_0-9-]* *)
Definition rxName : rx := RCat (RClass letterB) (RStar true (RClass nameB)).
(** [^\\q]|\\. *)
Definition rxInner (q : Z) : rx := RAlt (RClass (noneOf [92; q])) (RCat (RRune 92) RDot).
(** parser.go:168-176: alternatives, groups from 0 *)
Definition rxSpaces : rx := RPlus RSpace.
Definition rxComment : rx := RCat (RRune 35) (RStar true (RClass (noneOf [10]))).
Definition rxDouble : rx := RCat (RRune 34) (RCat (RStar true (rxInner 34)) (RRune 34)).
Definition rxSingle : rx := RCat (RRune 39) (RCat (RStar false RDot) (RRune 39)).
Definition rxDir : rx := RCat (RRune 33) (RPlus (RClass lowB)).
Definition rxTemplate : rx := RCat (RRune 36) (RCat (RRune 36) rxName).
Definition rxToken : rx := RCat (RRune 36) (ROpt rxName).
Definition rxRegexp : rx := RCat (RRune 47) (RCat (RPlus (rxInner 47)) (RRune 47)).
Definition rxOp : rx := RClass (oneOf [40; 41; 123; 125; 91; 93; 61; 124; 44; 59; 64]).
Definition rxWrong : rx := RCat (RClass (oneOf [39; 34; 47; 33])) (RUpTo 10 RDot).
Definition descRegexp : rx :=
  RAlts [rxSpaces; rxComment; RGroup 0 (RAlt rxDouble rxSingle); RGroup 1 rxName; RGroup 2 rxDir; RGroup 3 rxTemplate; RGroup 4 rxToken; RGroup 5 rxRegexp; RGroup 6 rxOp]
        (RGroup 7 rxWrong).
(** lexer.go:90, regexp.FindSubmatchIndex: [Regexp.findAtStart] *)
Definition descRe (text : list Z) : list Z := findAtStart descRegexp 8 text.
(** parser.go:178 *)
Definition descLexer : lexer := newLexer descTypes.

(** A *source.Source is its content (the name is not used) *)
Definition queueT := @squeue (list Z).
Definition contentOf (s : list Z) : list Z := s.
(** parser.go:181-192, 194-195: an empty queue, then c.q.Append(s) *)
Definition startQueue (text : list Z) : option queueT := do q <- sqNew; sqAppend (slen contentOf) q (Some text).
(** parser.go:314: llxLexer.Next(c.q) *)
Definition descNext (q : queueT) : option (queueT * (option (token (list Z)) * option (lexError (list Z)))) := lexNext contentOf descRe descLexer q.
(** [n] calls *)
Fixpoint descCalls (n : nat) (q : queueT) : option (list (option (token (list Z)) * option (lexError (list Z)))) :=
  match n with
  | O => Some []
  | S m => do (q', r) <- descNext q; do l <- descCalls m q'; Some (r :: l)
  end.

(** All the tokens and what follows them, as [LangText] takes them: tokens until the end of the source or an error *)
Definition kindOf (ty : Z) : option kind :=
  if ty =? 1 then Some KString else if ty =? 2 then Some KName else if ty =? 3 then Some KDir else if ty =? 4 then Some KTemplate
  else if ty =? 5 then Some KToken else if ty =? 6 then Some KRegexp else if ty =? 7 then Some KOp else None.
Fixpoint readAll (fuel : nat) (q : queueT) : option (list tok * tail) :=
  match fuel with
  | O => None
  | S f =>
      do (q', r) <- descNext q;
      match r with
      | (_, Some _) => Some ([], TWrong)
      | (Some t, None) =>
          if tokType t =? EofTokenType then Some ([], TEnd)
          else do k <- kindOf (tokType t); do (l, e) <- readAll f q'; Some (mkT k (tokContent t) :: l, e)
      | (None, None) => None
      end
  end.
(** parser.go:42-72: ParseString, ParseBytes, Parse: the text of a description, in steps: tokens, then [parseText].
    Line 314 takes tokens one at a time; errors come when they are reached ([LangText.nextToken]). *)
Definition parseBytes (compiles : name -> bool) (fullMatch : name -> name -> bool) (toUpper : name -> name) (fuel : nat)
    (orders : nat -> list Z * list Z * list Z) (text : list Z) : answer :=
  match (do q <- startQueue text; readAll (S (List.length text)) q) with
  | None => APanic
  | Some (input, end_) => parseText compiles fullMatch toUpper fuel orders input end_
  end.
