(** Specification: what tokens a queue of sources is for the lexer of a description without groups. *)
From Coq Require Import String ZArith List Bool.
From Verif Require Import Base Utf8 Grammar SourceQueue SourceQueueSpec Lexer ParserNew ParserNewSpec LangDescSpec DescTreeSpec.
Import ListNotations.
Open Scope Z_scope.

Section S.
Context {S : Type} (content : S -> list Z).
Variable prefers : name -> list Z -> option Z.
(** Regular expressions depend on nothing after what they match: no assertions (\b, $).  See [Prop_ParserNew.trees_cut]. *)
Definition regexpsCut : Prop := forall re text n, prefers re text = Some n -> prefers re (firstn (Z.to_nat n) text) = Some n.
(** langdef/parser.go:1074, 1091: re.FindString(text) == text; "" is also the answer when nothing is found. *)
Definition fullMatch (re text : name) : bool :=
  match text with [] => true | _ => match prefers re text with Some n => n =? zlen text | None => false end end.
Variable tokens : list gtoken.
(** Texts of the sources are split into tokens (all the types are in the group 0); after each source comes an end of file. *)
Inductive queueTokens : aq S -> list (token S) -> Prop :=
| QT_end : queueTokens [] []
| QT_source s p r l ts : splitInto prefers tokens 0 (rest content s p) l -> queueTokens r ts ->
    queueTokens ((s, p) :: r) (tokensAt tokens s p l ++ eofToken content s :: ts).
(** Tokens lexers may return: a piece of some text, found there as the first of types; or a special token *)
Definition found (i : Z) (piece : list Z) : Prop :=
  exists text d n, firstType prefers tokens 0 text i d n /\ 0 < n /\ i < 64 /\ piece = firstn (Z.to_nat n) text.
Definition ofLexer (t : token S) : Prop := found (tokType t) (tokContent t) \/ tokType t = EofTokenType \/ tokType t = EoiTokenType.
End S.

(** Tokens that count: neither of !side types nor ends of files *)
Definition counts {S} (rs : list record) (t : token S) : bool :=
  negb (match zget (typeNames rs) (tokType t) with Some n => listed DSide n rs | None => false end) && negb (tokType t =? EofTokenType).

Section D.
Variable prefers : name -> list Z -> option Z.
Variable toUpper : name -> name.
Variable rs : list record.
Variable res : list (name * name).
Notation found := (found prefers (tokensNow rs res)).
(** strings.ToUpper *)
Definition upperTwice : Prop := forall s, toUpper (toUpper s) = toUpper s.
(** The regular expressions of !caseless types match the literals in upper case if they match them in some case. *)
Definition caselessOk : Prop := forall n re i piece, zget (typeNames rs) i = Some n -> In (n, re) res -> listed DCaseless n rs = true ->
  found i piece -> In (toUpper piece) (literals rs) -> fullMatch prefers re (toUpper piece) = true.
(** Pieces of !side types are not literals that are used. *)
Definition sidesApart : Prop := forall n i piece, zget (typeNames rs) i = Some n -> listed DSide n rs = true -> mayBeLiteral rs n ->
  found i piece -> ~ In (if listed DCaseless n rs then toUpper piece else piece) (usedLiterals rs).
(** There is a type for lexers (lexers know 64 types); there are no groups of types. *)
Definition oneLexer : Prop := (exists i n re, zget res i = Some (n, re) /\ re <> [] /\ i < 64) /\ typesIn (dirEqb DGroup) rs = [].
End D.
