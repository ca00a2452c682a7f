(** Specification: conflicts that stand apart, so that the lookahead has to resolve one conflict at a time
    (README.md:94-100). *)
From Coq Require Import ZArith List Bool.
From Verif Require Import Base Grammar Rules RulesSpec Parser VariantSpec StarSpec.
Import ListNotations.
Open Scope Z_scope.

Section S.
Context {Tok Src W E Inst R : Type}.
Variable c : config Tok Src W E Inst R.
Notation g := (cGrammar c).
Notation variant := (variant (cType c) (cText c) (cUpper c) g).

(** No conflict lists a rule twice. *)
Definition once : Prop :=
  forall m rs, In m (gMultiRules g) -> zslice (gRules g) (mLow m) (mHigh m) = Some rs -> NoDup rs.

(** Let [t] be a token for which the state [i] of a node has several rules, and [p1], [p2] two ways to take it.  If both of them
    can be continued to take the tokens [ts] that follow, then the first one meets no other conflict with the next token [t']. *)
Definition apart : Prop :=
  forall n i t ts t' p1 p2 q1 q2 k1 k2 l1 l2 x m j l, conflict c t i ->
  variant (n, i) [t] p1 1 k1 -> variant (n, i) [t] p2 1 k2 -> p1 <> p2 ->
  variant (n, i) (t :: ts) (p1 ++ q1) (length (t :: ts)) l1 -> variant (n, i) (t :: ts) (p2 ++ q2) (length (t :: ts)) l2 ->
  variant (n, i) ((t :: ts) ++ [t']) ((p1 ++ q1) ++ x) (length (t :: ts)) ((m, j) :: l) -> ~ conflict c t' j.
End S.
