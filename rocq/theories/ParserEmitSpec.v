(** What may stand in the history of a parse about tokens emitted by hooks (C74). *)
From Coq Require Import ZArith List.
From Verif Require Import Base Grammar Rules Parser.
From Verif Require Lexer.
Import ListNotations.
Open Scope Z_scope.

Section P.
Context {Tok Src W E Inst R : Type}.
Variable c : config Tok Src W E Inst R.
(** types a hook may emit: those of the grammar, end of file and end of input *)
Definition known (tt : Z) : Prop := 0 <= tt < zlen (gTokens (cGrammar c)) \/ tt = Lexer.EofTokenType \/ tt = Lexer.EoiTokenType.
(** Histories, latest event first: whenever a layer decides to emit tokens, either all of them have types known to the parser, or the very next event is
    that the first of them that has not is refused; nothing else is refused. *)
Inductive checked : list (event Tok E Inst R) -> Prop :=
| ck_nil : checked []
| ck_other ev l : (forall layer t emit extra, ev <> EvDecide layer t emit extra) -> (forall t, ev <> EvWrong t) -> checked l -> checked (ev :: l)
| ck_good layer t emit extra l : Forall (fun x => known (cType c x)) extra -> checked l -> checked (EvDecide layer t emit extra :: l)
| ck_wrong layer t emit good x others l : Forall (fun x => known (cType c x)) good -> ~ known (cType c x) -> checked l ->
    checked (EvWrong x :: EvDecide layer t emit (good ++ x :: others) :: l).
End P.
