(** Specification: how errors name what is expected, by the records of a description. *)
From Coq Require Import ZArith List Bool.
From Verif Require Import Base Grammar LangDescSpec DescTreeSpec.
Import ListNotations.
Open Scope Z_scope.

(** What may be expected: a token of a type or a literal *)
Inductive term := TType (n : name) | TLiteral (s : name).
(** "$" and the name of the type, or the literal itself *)
Definition termName (x : term) (s : name) : Prop := match x with TType n => s = 36 :: n | TLiteral l => s = l end.
Section S.
Context {Tok : Type} (ttype : Tok -> Z) (ttext : Tok -> name) (toUpper : name -> name).
Variable rs : list record.
(** tokens that may be used so *)
Definition termFits (t : Tok) (x : term) : Prop := match x with TType n => usedAs ttype ttext toUpper rs t n | TLiteral s => literalOf ttype ttext toUpper rs t s end.
End S.
