(** Specification: where the syntax of a description is wrong (langdef/docs.go:79-192, langdef/errors.go:56-66, 136-138). *)
From Coq Require Import ZArith List.
From Verif Require Import Base Grammar LangString LangStringSpec LangText LangTextSpec LangDescSpec.
Import ListNotations.
Open Scope Z_scope.

(** descriptions, see LangDescSpec.v *)
Definition description (input : list tok) : Prop := readable input /\ exists rs, spells input rs.
(** tokens that some description begins with *)
Definition canBegin (pre : list tok) : Prop := exists q, description (pre ++ q).
(** the token of an error: the one in the text, with escapes of strings replaced *)
Definition shown (t0 t : tok) : Prop :=
  (tKind t0 <> KString -> t = t0) /\ (tKind t0 = KString -> exists q s, stringOf t0 s /\ t = mkT KString (q :: s ++ [q])).
(** errors that tell a token is not expected, and its place *)
Definition wrongToken (e : readError) (t : tok) : Prop := e = RE_unexpected t \/ e = RE_unknownDirective t.
(** token [t0] is the first wrong one *)
Definition firstWrong (pre : list tok) (t0 : tok) : Prop := canBegin pre /\ ~ canBegin (pre ++ [t0]).
