(** Specification: grammars in which one token decides what to do; when lexers and hooks let a parse go on. *)
From Coq Require Import ZArith List Bool.
From Verif Require Import Base Grammar RulesSpec Parser ParserSpec ParserFlowSpec ParserSafeSpec.
Import ListNotations.
Open Scope Z_scope.

Section S.
Context {Tok Src W E Inst R : Type}.
Variable c : config Tok Src W E Inst R.
Notation g := (cGrammar c).
Notation tokenMatches := (tokenMatches (cType c) (cText c) (cUpper c) g).
(** tokens lexers may return *)
Variable lexed : Tok -> Prop.

(** ** The grammar *)
(** the rule is for certain tokens *)
Definition reads (r : rule) : Prop := rToken r <> AnyToken.
(** states of the machine of a node *)
Inductive ofNode : Z -> Z -> Prop :=
| ON_first n nt : zget (gNodes g) n = Some nt -> ofNode n (gnFirst nt)
| ON_step n j r : ofNode n j -> ruleOf g j r -> ofNode n (rState r).
(** [comesNext n j t]: when the node [n] is in the state [j], [t] may be the next token: it is expected there, or after
    something that may be omitted, or after the end of the node. *)
Inductive comesNext : Z -> Z -> Tok -> Prop :=
| CN_here n j r t : ruleOf g j r -> reads r -> tokenMatches t (rToken r) -> comesNext n j t
| CN_skip n j r t : ruleOf g j r -> rToken r = AnyToken -> comesNext n (rState r) t -> comesNext n j t
| CN_after n m j r t : ofNode m j -> ruleOf g j r -> rNode r = n -> comesNext m (rState r) t -> comesNext n FinalState t
| CN_end t : cType c t = EoiTokenType -> comesNext RootNode FinalState t.

(** LL(1): the next token tells which rule to take.  No state has two rules for a token; if a part may be omitted, then no
    token that may come after it is among its first tokens. *)
Record predictive : Prop := mkPredictive {
  pr_multi : gMultiRules g = [];
  pr_token : forall j r r' t, ruleOf g j r -> ruleOf g j r' -> reads r -> reads r' ->
    lexed t -> tokenMatches t (rToken r) -> tokenMatches t (rToken r') -> r = r';
  pr_skip : forall n j r r' t, ofNode n j -> ruleOf g j r -> rToken r = AnyToken -> ruleOf g j r' -> reads r' ->
    lexed t -> tokenMatches t (rToken r') -> ~ comesNext n (rState r) t
}.

(** Tokens a grammar is about: neither side tokens nor ends of files *)
Definition core (t : Tok) : bool := negb (sideToken c t) && negb (cType c t =? EofTokenType).
(** Rules are for such tokens. *)
Definition coreRules : Prop := forall j r t, ruleOf g j r -> reads r -> lexed t -> tokenMatches t (rToken r) -> core t = true.
(** A rule for a nested node comes with rules for all tokens the node may begin with; nested nodes have tokens. *)
Record nodeRules : Prop := mkNodeRules {
  nr_some : forall j r (T : tree Tok Inst R), ruleOf g j r -> rNode r <> SameNode -> derived (cType c) (cText c) (cUpper c) g (rNode r) T ->
    (forall t, In t (leaves T) -> lexed t) ->
    filter core (leaves T) <> [];
  nr_first : forall j r (T : tree Tok Inst R) t u, ruleOf g j r -> rNode r <> SameNode -> derived (cType c) (cText c) (cUpper c) g (rNode r) T ->
    (forall t, In t (leaves T) -> lexed t) ->
    filter core (leaves T) = t :: u ->
    exists r', ruleOf g j r' /\ rNode r' = rNode r /\ rState r' = rState r /\ reads r' /\ tokenMatches t (rToken r')
}.

(** ** Lexers *)
(** types found by lexers: not external ones, nor literals *)
Definition hasRegexp (tt : Z) : Prop := exists d, zget (gTokens g) tt = Some d /\ gtRe d <> [].
(** [types] is a set of types of tokens; special tokens (ends of files and of input) are found if lexers have some types of the set
    (lexer.go:163). *)
Definition wanted (types tt : Z) : Prop :=
  if tt <? 0 then exists k, k < 64 /\ hasRegexp k /\ Z.testbit types k = true else Z.testbit types tt = true.
(** The state has the types of the tokens its rules are for; if there are such tokens, then it also has those of side tokens. *)
Definition typesOk : Prop := forall j st r t, zget (gStates g) j = Some st -> ruleOf g j r -> reads r -> lexed t -> tokenMatches t (rToken r) ->
  wanted (sTypes st) (cType c t) /\
  (forall t', lexed t' -> core t' = false -> wanted (sTypes st) (cType c t')).
Definition known (t : Tok) : Prop := (0 <= cType c t < 64 /\ hasRegexp (cType c t)) \/ cType c t = EofTokenType \/ cType c t = EoiTokenType.
(** Sources without lexical errors ([fair]): types are those of the grammar (there are at most 64 of them, lexer.go); the next
    token is returned when its type is wanted. *)
Record willing (fair : Src -> Prop) (view : Src -> list Tok) (eoi : Tok) : Prop := mkWilling {
  wi_source : sourceOf c view eoi;
  wi_fair : forall types src, fair src -> exists src' t, fetchToken c types src = (src', (t, None)) /\ fair src';
  wi_lexed : forall src t, fair src -> In t (view src) -> lexed t;
  wi_eoi : lexed eoi;
  wi_known : forall t, lexed t -> known t;
  wi_some : wanted AllTokenTypes EoiTokenType;
  wi_wanted : forall types src src', fair src -> fetchToken c types src = (src', (None, None)) -> ~ wanted types (cType c (hd eoi (view src)))
}.
(** ** Hooks, context: no errors *)
Record noErrors : Prop := mkNoErrors {
  ne_ctx : forall w, snd (cCtx c w) = None;
  ne_newNode : forall i n t w, snd (mNewNode (cMethods c) i n t w) = None;
  ne_node : forall i n x w, snd (mHandleNode (cMethods c) i n x w) = None;
  ne_token : forall i t w, snd (mHandleToken (cMethods c) i t w) = None;
  ne_end : forall i w, snd (snd (mEndNode (cMethods c) i w)) = None;
  ne_create : forall table h n t w, In table (cNodeHooks c) -> In (Some h) table -> snd (snd (h n t w)) = None
}.
(** Hooks that neither fail nor touch the source or the tokens; their tables are as large as the parser makes them. *)
Record calmHooks : Prop := mkCalmHooks {
  ch_errors : noErrors;
  ch_quiet : quietHooks c;
  ch_tokens : cTokenHooks c = [];
  ch_nodes : forall table, In table (cNodeHooks c) -> zlen (gNodes g) < zlen table
}.
(** An LL(1) grammar with the tables made for it: see above. *)
Record predictiveGrammar : Prop := mkPG {
  pg_ok : grammarOk c;
  pg_predictive : predictive;
  pg_core : coreRules;
  pg_nodes : nodeRules;
  pg_types : typesOk;
  pg_endless : forall j r, ruleOf g j r -> rToken r <> EoiTokenType
}.
(** The tree [T] is a tree for a source of the tokens [l]: it has these tokens, up to side tokens and ends of files. *)
Definition treeFor (T : tree Tok Inst R) (l : list Tok) : Prop :=
  derived (cType c) (cText c) (cUpper c) g RootNode T /\ (forall t, In t (leaves T) -> lexed t) /\ filter core (leaves T) = filter core l.
End S.
