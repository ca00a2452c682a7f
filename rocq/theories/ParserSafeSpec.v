(** Specification: when a grammar, lexers and hooks fit together. *)
From Coq Require Import ZArith List Bool.
From Verif Require Import Base Grammar RulesSpec Parser ParserSpec.
Import ListNotations.
Open Scope Z_scope.

Section S.
Context {Tok Src W E Inst R : Type}.
Variable c : config Tok Src W E Inst R.
Notation g := (cGrammar c).

(** Indexes in the tables of the grammar are in range; a state with no rule for "any token"
    has rules for tokens of the grammar only (so that a syntax error can name one of them). *)
Record grammarOk : Prop := mkGrammarOk {
  go_tables : tablesOk g;
  go_state : forall r, In r (gRules g) -> rState r = FinalState \/ exists st, zget (gStates g) (rState r) = Some st;
  go_node : forall r, In r (gRules g) -> rNode r = SameNode \/ exists nt, zget (gNodes g) (rNode r) = Some nt;
  go_first : forall i nt, zget (gNodes g) i = Some nt -> exists st, zget (gStates g) (gnFirst nt) = Some st;
  go_root : exists nt, zget (gNodes g) RootNode = Some nt;
  go_tokens : gTokens g <> [];
  go_named : forall i st, zget (gStates g) i = Some st ->
    (exists r, ruleOf g i r /\ rToken r = AnyToken) \/
    (forall r, ruleOf g i r -> exists d, zget (gTokens g) (rToken r) = Some d)
}.

(** Types of tokens that exist: those of the grammar, end of input, end of file *)
Definition knownToken (t : Tok) : Prop := EoiTokenType <= cType c t < zlen (gTokens g).

(** Lexers return known tokens, and always something (a token or an error) when any token
    will do; tables of hooks are as large as the parser makes them. *)
Record settingOk : Prop := mkSettingOk {
  st_grammar : grammarOk;
  st_lexers : forall types src src' t, fetchToken c types src = (src', (Some t, None)) -> knownToken t;
  st_any : forall src src', fetchToken c AllTokenTypes src <> (src', (None, None));
  st_tokenHooks : forall table, In table (cTokenHooks c) -> 3 <= zlen table;
  st_literals : forall text i, cLiterals c text = Some i -> 0 <= i;
  st_nodeHooks : forall table, In table (cNodeHooks c) -> zlen (gNodes g) < zlen table
}.
(** Lexers find a token of the wanted types or fail. *)
Definition alwaysToken : Prop := forall types src src', fetchToken c types src <> (src', (None, None)).
End S.
