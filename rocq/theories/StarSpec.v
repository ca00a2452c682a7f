(** Specification: inputs of grammars with conflicts for which the longest variant is the right one
    (README.md:94-100). *)
From Coq Require Import ZArith List Bool.
From Verif Require Import Base Grammar Rules RulesSpec Parser ParserSpec ParserSafeSpec ParserFlowSpec ParserTermSpec PredictSpec VariantSpec.
Import ListNotations.
Open Scope Z_scope.

Section S.
Context {Tok Src W E Inst R : Type}.
Variable c : config Tok Src W E Inst R.
Notation g := (cGrammar c).
Notation variant := (variant (cType c) (cText c) (cUpper c) g).
Variables (view : Src -> list Tok) (eoi : Tok).

(** Lexers return the next token whatever types are asked for, ends of input after the last one; no lexical errors. *)
Definition eager : Prop := cType c eoi = EoiTokenType /\
  forall types src, exists src', fetchToken c types src = (src', (Some (hd eoi (view src)), None)) /\ view src' = tl (view src).

(** The tokens the parser gets, and [m] ends of input *)
Definition ends (m : nat) : list (option Tok) := repeat (Some eoi) m.
Definition input (src : Src) (m : nat) : list (option Tok) := map Some (filter (visible c) (view src)) ++ ends m.

(** The state [i] has several rules for the token. *)
Inductive conflict (t : option Tok) (i : Z) : Prop :=
| Conflict st rules multi keys rs : ~ isSide (cType c) g t -> (forall tok, t = Some tok -> cType c tok < zlen (gTokens g)) ->
    zget (gStates g) i = Some st -> zslice (gRules g) (sLow st) (sHigh st) = Some rules -> zslice (gMultiRules g) (sLowMulti st) (sHighMulti st) = Some multi ->
    keysOf (cType c) (cText c) (cUpper c) g t keys -> selected g rules multi keys rs -> (2 <= length rs)%nat -> conflict t i.

(** [rs] is a way to read the input to its end (side tokens may be left): rules are taken one after another, all of them are
    offered, the root node (its first state is [first]) is finished. *)
Definition trailing (t : option Tok) : Prop := t = Some eoi \/ isSide (cType c) g t.
Definition reading (first : Z) (src : Src) (rs : list rule) : Prop :=
  exists k, variant (RootNode, first) (input src 1) rs k [] /\ Forall trailing (skipn k (input src 1)).

(** Wherever this way meets a conflict: let [rsa] be its rules that finish the node, and [K] the number of tokens
    they take.  Any other variant takes fewer tokens, or the same number but does not finish the node. *)
Definition decided (first : Z) (src : Src) (rs : list rule) : Prop :=
  forall m rs1 rs2 k n i l t, rs = rs1 ++ rs2 -> variant (RootNode, first) (input src m) rs1 k ((n, i) :: l) ->
  nth_error (input src m) k = Some t -> conflict t i ->
  forall rsa rsb K, rs2 = rsa ++ rsb -> variant (n, i) (skipn k (input src m)) rsa K [] ->
  forall rs' k' l', variant (n, i) (skipn k (input src m)) rs' k' l' ->
  (exists x, rs2 = rs' ++ x) \/ (k' < K)%nat \/ (k' = K /\ l' <> []).
End S.

(** A setting in which nothing but the input can make a parse fail: tables are well formed, hooks are calm, lexers
    give tokens one by one, nodes do not go round in circles, each state asks for tokens of some types. *)
Record plainSetting {Tok Src W E Inst R} (c : config Tok Src W E Inst R) (view : Src -> list Tok) (eoi : Tok) : Prop := mkPlain {
  pl_setting : settingOk c;
  pl_hooks : calmHooks c;
  pl_lexers : eager c view eoi;
  pl_loops : noIdleLoop (cGrammar c);
  pl_types : forall i st, zget (gStates (cGrammar c)) i = Some st -> sTypes st <> 0
}.
