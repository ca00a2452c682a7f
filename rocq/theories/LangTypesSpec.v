(** Specification: which types of tokens may stand for a token of a description. *)
From Coq Require Import ZArith List Bool.
From Verif Require Import Base Grammar.
Import ListNotations.
Open Scope Z_scope.

(** The order of the tokens of a description: token types with regular expressions, external ones, literals *)
Definition regexpType (t : gtoken) : Prop := gtRe t <> [] /\ hasFlag (gtFlags t) LiteralToken = false.
Definition externalType (t : gtoken) : Prop := gtRe t = [] /\ hasFlag (gtFlags t) LiteralToken = false.
Definition literalToken (t : gtoken) : Prop := gtRe t = [] /\ hasFlag (gtFlags t) LiteralToken = true.
Definition arranged (ts : list gtoken) : Prop :=
  exists a b c, ts = a ++ b ++ c /\ Forall regexpType a /\ Forall externalType b /\ Forall literalToken c.

Section T.
Variable fullMatch : name -> name -> bool.
Variable toUpper : name -> name.
Variable ts : list gtoken.
(** The regular expression of the type matches the whole literal; the type lets literals through; if it ignores case, then
    literals are upper case ones. *)
Record covers (rt lt : gtoken) : Prop := mkCovers {
  cv_type : regexpType rt;
  cv_literals : hasFlag (gtFlags rt) NoLiteralsToken = false;
  cv_case : hasFlag (gtFlags rt) CaselessToken = true -> toUpper (gtName lt) = gtName lt;
  cv_match : fullMatch (gtRe rt) (gtName lt) = true
}.
(** A token of the type [b] may stand for the token [k]: it is of this type, or is this literal. *)
Inductive mayBe (k b : Z) : Prop :=
| MB_type t : zget ts k = Some t -> hasFlag (gtFlags t) LiteralToken = false -> b = k -> mayBe k b
| MB_literal lt rt : zget ts k = Some lt -> literalToken lt -> zget ts b = Some rt -> covers rt lt -> mayBe k b.
Definition sideType (b : Z) : Prop := exists t, zget ts b = Some t /\ hasFlag (gtFlags t) SideToken = true.
End T.
