(** Specification: what a syntax error should say.  It should point at the first token that makes the input wrong, and it
    should name a token that would have been right in its place. *)
From Coq Require Import ZArith List Bool.
From Verif Require Import Base Grammar RulesSpec Parser ParserSpec ParserFlowSpec ParserSafeSpec PredictSpec.
Import ListNotations.
Open Scope Z_scope.

(** ** Right errors *)
Section Errors.
Context {Tok E Inst R K : Type}.
Notation tree := (tree Tok Inst R).
(** trees of a language, tokens lexers may return, tokens that count (not side ones) *)
Variable isTree : tree -> Prop.
Variable lexed : Tok -> Prop.
Variable keep : Tok -> bool.
(** what may be expected: how messages name it, tokens that fit *)
Variable name : K -> list Z -> Prop.
Variable fits : Tok -> K -> Prop.
(** the token for the end of input *)
Variable eoi : Tok.

(** [p] is the whole text of some tree. *)
Definition wholeOf (p : list Tok) : Prop := exists T : tree, isTree T /\ (forall t, In t (leaves T) -> lexed t) /\ filter keep (leaves T) = p.
(** [p] is how some text begins. *)
Definition beginsOf (p : list Tok) : Prop := exists v, wholeOf (p ++ v).
(** [x] names something that could have come after [p]. *)
Definition couldFollowOf (p : list Tok) (x : list Z) : Prop := exists k, name k x /\ forall t, lexed t -> fits t k -> beginsOf (p ++ [t]).
(** the error for a source of the tokens [l] is right *)
Definition rightErrorOf (l : list Tok) (e : err Tok E) : Prop :=
  match e with
  | UnexpectedToken t x => exists p u, l = p ++ t :: u /\ beginsOf p /\ ~ beginsOf (p ++ [t]) /\ couldFollowOf p x
  | UnexpectedEoi t x => t = eoi /\ beginsOf l /\ ~ wholeOf l /\ couldFollowOf l x
  | RemainingSource t => exists p u, l = p ++ t :: u /\ wholeOf p /\ ~ beginsOf (p ++ [t])
  | _ => False
  end.
End Errors.

Section S.
Context {Tok Src W E Inst R : Type}.
Variable c : config Tok Src W E Inst R.
Notation g := (cGrammar c).
Notation tree := (tree Tok Inst R).
Notation tokenMatches := (tokenMatches (cType c) (cText c) (cUpper c) g).
(** tokens lexers may return *)
Variable lexed : Tok -> Prop.

(** ** Errors and trees of a grammar *)
(** [x] is how messages name the token type (or the literal) [k]: the text of the literal, or "$" and the name of the type *)
Definition named (k : Z) (x : list Z) : Prop :=
  exists d, zget (gTokens g) k = Some d /\ x = if hasFlag (gtFlags d) LiteralToken then gtName d else 36 :: gtName d.
Definition whole : list Tok -> Prop := wholeOf (Inst := Inst) (R := R) (derived (cType c) (cText c) (cUpper c) g RootNode) lexed (core c).
Definition begins : list Tok -> Prop := beginsOf (Inst := Inst) (R := R) (derived (cType c) (cText c) (cUpper c) g RootNode) lexed (core c).
Definition couldFollow : list Tok -> list Z -> Prop := couldFollowOf (Inst := Inst) (R := R) (derived (cType c) (cText c) (cUpper c) g RootNode) lexed (core c) named tokenMatches.
Definition rightError (eoi : Tok) : list Tok -> err Tok E -> Prop := rightErrorOf (Inst := Inst) (R := R) (derived (cType c) (cText c) (cUpper c) g RootNode) lexed (core c) named tokenMatches eoi.

(** ** Grammars *)
(** [mayStart j t]: from the state [j], [t] may be the next token that is taken. *)
Inductive mayStart : Z -> Tok -> Prop :=
| MS_token j r t : ruleOf g j r -> reads r -> rNode r = SameNode -> tokenMatches t (rToken r) -> mayStart j t
| MS_skip j r t : ruleOf g j r -> rToken r = AnyToken -> mayStart (rState r) t -> mayStart j t
| MS_node j r nt t : ruleOf g j r -> reads r -> rNode r <> SameNode -> tokenMatches t (rToken r) -> zget (gNodes g) (rNode r) = Some nt ->
    mayStart (gnFirst nt) t -> mayStart j t.
(** Nested nodes are entered on tokens they may begin with, and only so. *)
Record exactNodes : Prop := mkExactNodes {
  en_skip : forall j r, ruleOf g j r -> rToken r = AnyToken -> rNode r = SameNode;
  en_node : forall j r nt t, ruleOf g j r -> reads r -> rNode r <> SameNode -> zget (gNodes g) (rNode r) = Some nt ->
    lexed t -> tokenMatches t (rToken r) -> mayStart (gnFirst nt) t
}.
(** Every node can be finished from wherever it is: there are no useless nodes. *)
Definition finishable : Prop := forall n j, ofNode c n j ->
  exists ks : list tree, run (cType c) (cText c) (cUpper c) g j ks FinalState /\ forall t, In t (leavesL ks) -> lexed t.
(** Going back keeps sources free of errors. *)
Definition unreadFair (fair : Src -> Prop) : Prop :=
  forall types src src' t, fair src -> fetchToken c types src = (src', (Some t, None)) -> cType c t <> EoiTokenType -> cType c t <> EofTokenType -> fair (cUnread c t src').
End S.
