(** Specification: what lexers of a description with any groups of types may read. *)
From Coq Require Import String ZArith List Bool.
From Verif Require Import Base Utf8 Grammar SourceQueue SourceQueueSpec Lexer ParserNew ParserNewSpec LangDescSpec DescTreeSpec.
Import ListNotations.
Open Scope Z_scope.

Section S.
Context {S : Type} (content : S -> list Z).
Variable prefers : name -> list Z -> option Z.
Variable tokens : list gtoken.
(** Tokens read from a queue of sources with positions, and the queue after that.  A token is found where the one before it ends, by
    the first type of some group that matches there; an end of file is read at the end of a source. *)
Inductive readsTo : aq S -> list (token S) -> aq S -> Prop :=
| RT_here q : readsTo q [] q
| RT_token s p r k i d n l q : 0 <= p < zlen (content s) -> firstType prefers tokens k (rest content s p) i d n -> 0 < n -> i < 64 -> readsTo ((s, p + n) :: r) l q ->
    readsTo ((s, p) :: r) (mkToken i (nameText (gtName d)) (firstn (Z.to_nat n) (rest content s p)) (Some s) p :: l) q
| RT_eof s r l q : readsTo r l q -> readsTo ((s, zlen (content s)) :: r) (eofToken content s :: l) q.
End S.

(** tokens of !side types *)
Definition sideIn {S} (rs : list record) (t : token S) : bool := match zget (typeNames rs) (tokType t) with Some n => listed DSide n rs | None => false end.
(** tokens a tree may have: no ends of files, side ones only with the option WithSides *)
Definition shown {S} (rs : list record) (withSides : bool) (t : token S) : bool := negb (tokType t =? EofTokenType) && (withSides || negb (sideIn rs t)).
