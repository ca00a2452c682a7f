(** Indents, said about tokens only. *)
From Coq Require Import List String ZArith.
From Verif Require Import Style StyleSpec.
Import ListNotations.
Open Scope string_scope.
Open Scope list_scope.

Definition noIndent (l : list stok) : Prop := forall x, In x l -> sType x <> "indent".
(** an indent token is a line end and then no tabs (for tabs see C88) and no other line ends *)
Definition plainIndent (t : stok) (s : string) : Prop :=
  sType t = "indent" /\ sText t = String newline s /\ forall c, contains s c -> c <> tab /\ c <> newline.
Definition plain (l : list stok) : Prop := forall t, In t l -> sType t = "indent" -> exists s, plainIndent t s.
(** the line where the tokens end has the indent [n] *)
Definition lineIndent (before : list stok) (n : Z) : Prop :=
  noIndent before /\ n = 0%Z \/
  exists a t line s, before = a ++ t :: line /\ plainIndent t s /\ noIndent line /\ n = Z.of_nat (width s).
(** what follows the tokens starts its line, at the indent [n] *)
Definition standsAt (before : list stok) (n : Z) : Prop :=
  before = [] /\ n = 0%Z \/ exists a t s, before = a ++ [t] /\ plainIndent t s /\ n = Z.of_nat (width s).
(** items of the file have no indent, those of a struct have 4 more than the line where the struct starts *)
Definition wantedAt (container : option (list stok)) (n : Z) : Prop :=
  match container with None => n = 0%Z | Some before => exists k, lineIndent before k /\ n = (k + 4)%Z end.
