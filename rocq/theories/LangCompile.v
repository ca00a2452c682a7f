(** Model of /repo/langdef/parser.go, lines 52-72: what is done to a description when its text has been read. *)
From Coq Require Import ZArith List Bool.
From Verif Require Import Base Grammar LangBuild LangNodes LangTypes.
Import ListNotations.
Open Scope Z_scope.

Inductive verdict :=
| Compiled (g : grammar)
| BadLiteral (n : name)         (* errors.go: unresolvedTokenTypesError *)
| BadNodes (e : nodeError)
| Endless                       (* a loop did not end within the given number of steps *)
| Panic.                        (* index out of range, nil dereference *)

Section C.
Variable fullMatch : name -> name -> bool.
Variable toUpper : name -> name.

(** parser.go:62-71; [defs] are the definitions of nodes in the order of the nodes, [names] their names, [o1], [o2], [o3] the
    orders of the loops over the index of nodes (a map) *)
Definition compileDescription (fuel : nat) (o1 o2 o3 : list Z) (tokens : list gtoken) (layers : list glayer) (names : list name) (defs : list (option chunk)) : verdict :=
  match tokenTypes fullMatch toUpper tokens with
  | None => Panic
  | Some (inr n) => BadLiteral n
  | Some (inl ttypes) =>
      match checkNodes fuel o1 o2 o3 defs with
      | Stuck => Endless
      | Crash => Panic
      | Bad e => BadNodes e
      | Good (_, fs, p) =>
          match (do es <- stateTypes tokens ttypes fs (prStates p) ; buildGrammar tokens layers names fs es) with
          | None => Panic
          | Some g => Compiled g
          end
      end
  end.
End C.
