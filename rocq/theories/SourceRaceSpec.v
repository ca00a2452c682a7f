(** What goroutines that ask for places in the same source must get. *)
From Coq Require Import ZArith List Bool.
From Verif Require Import SourceSpec.
Import ListNotations.
Open Scope Z_scope.

(** [got]: answers got so far by a goroutine that asks for places of offsets [asked] in this order, each is the right one *)
Definition rightAnswers (c : list Z) (asked : list Z) (got : list (option (Z * Z))) : Prop :=
  exists done_ rest, asked = done_ ++ rest /\ got = map (fun pos => Some (line_col_spec c pos)) done_.
