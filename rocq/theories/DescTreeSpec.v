(** Specification: syntax trees of a grammar description, by its records (LangDescSpec.v); no indices, no state machines. *)
From Coq Require Import ZArith List Bool.
From Verif Require Import Base Grammar ParserSpec LangBuild LangText LangTreeSpec LangDescSpec.
Import ListNotations.
Open Scope Z_scope.

Section Trees.
Context {Tok Inst R : Type}.
(** the token may be used as a token of the type, as the literal, as the end of input; it is a side one *)
Variables isType isLiteral : Tok -> name -> Prop.
Variable isEnd side : Tok -> Prop.
(** the number of the node in the grammar *)
Variable number : name -> Z.
Variable rs : list record.
Notation tree := (tree Tok Inst R).
Inductive vTree : variant -> list tree -> Prop :=
| VT_node n T : nTree n T -> vTree (VNode n) [T]
| VT_type n t : isType t n -> vTree (VType n) [Leaf t]
| VT_end t : isEnd t -> vTree VEnd [Leaf t]
| VT_literal s t : isLiteral t s -> vTree (VLiteral s) [Leaf t]
| VT_round l ts : sTree l ts -> vTree (VList Round l) ts
(* 0 or 1 time *)
| VT_none l : vTree (VList Square l) []
| VT_some l ts : sTree l ts -> vTree (VList Square l) ts
(* 0 or more times *)
| VT_never l : vTree (VList Curly l) []
| VT_again l ts us : sTree l ts -> vTree (VList Curly l) us -> vTree (VList Curly l) (ts ++ us)
(** one of the variants *)
with iTree : list variant -> list tree -> Prop :=
| IT_variant i v ts : In v i -> vTree v ts -> iTree i ts
(** items one after another *)
with sTree : sequence -> list tree -> Prop :=
| ST_none : sTree [] []
| ST_more i l ts us : iTree i ts -> sTree l us -> sTree (i :: l) (ts ++ us)
(** side tokens may stand anywhere *)
with nTree : name -> tree -> Prop :=
| NT_node n l t0 hooks results kids core : In (RNode n l) rs -> withSides side kids core -> sTree l core ->
    nTree n (Node (number n) t0 hooks results kids).
End Trees.
(** Definitions of the nodes *)
Definition defsOf (rs : list record) : list chunk := flat (fun n => match definition rs n with Some d => [d] | None => [] end) (nodeNames rs).
(** ** Tokens by names: a token has a type (a number in the list of types) and a text *)
Section Tokens.
Context {Tok : Type} (ttype : Tok -> Z) (ttext : Tok -> name) (toUpper : name -> name).
Variable rs : list record.
Definition typeOf (t : Tok) (n : name) : Prop := zget (typeNames rs) (ttype t) = Some n.
(** the text in upper case for !caseless types *)
Definition textOf (t : Tok) (n : name) : name := if listed DCaseless n rs then toUpper (ttext t) else ttext t.
(** if there are types in !literal, then only tokens of those are literals *)
Definition mayBeLiteral (n : name) : Prop := listed DLiteral n rs = true \/ typesIn (dirEqb DLiteral) rs = [].
Definition literalOf (t : Tok) (s : name) : Prop := exists n, typeOf t n /\ mayBeLiteral n /\ textOf t n = s /\ In s (literals rs).
(** a token that is a reserved literal is nothing but that literal; a word is reserved if !reserved is the first directive that lists it *)
Definition usedAs (t : Tok) (n : name) : Prop := typeOf t n /\ forall s, literalOf t s -> reservedNow s rs = false.
Definition sideOf (t : Tok) : Prop := exists n, typeOf t n /\ listed DSide n rs = true.
Definition endOf (t : Tok) : Prop := ttype t = EoiToken.
(** trees of the node [n] of the description *)
Definition treeOf {Inst R} (n : name) (T : ParserSpec.tree Tok Inst R) : Prop := nTree usedAs literalOf endOf sideOf (fun n => position n (nodeNames rs)) rs n T.
(** the token is not of the type of a literal (lexers do not return such tokens) *)
Definition plainToken (t : Tok) : Prop := ttype t < zlen (typeNames rs).
End Tokens.
