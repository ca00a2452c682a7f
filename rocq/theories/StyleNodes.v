(** Model of two checks of /repo/examples/style-check/internal/lib.go that go over nodes: indents and alignment of fields.
    Which nodes are looked at (lib.go:269-282, 386-394, made with selectors) is not modelled: the nodes are given as lists. *)
From Coq Require Import List Bool String ZArith.
From Verif Require Import Style.
Import ListNotations.
Open Scope string_scope.
Open Scope list_scope.

(** an item of lib.go:394: the tokens before it and its first token *)
Record item := Item { iBefore : list stok; iFirst : stok }.
(** lib.go:389-393: [None] for the root, otherwise the tokens before the container *)
Definition expectedIndent (container : option (list stok)) : Z :=
  match container with None => 0%Z | Some before => (fst (blockIndentSize before) + 4)%Z end.
(** lib.go:395-406 *)
Fixpoint itemReports (expected : Z) (items : list item) : list place_report :=
  match items with
  | [] => []
  | i :: rest =>
      let '(indent, isFirst) := blockIndentSize (iBefore i) in
      if negb isFirst then reportToken (iFirst i) "must be on a separate line" :: itemReports expected rest
      else if negb (Z.eqb indent expected) then [reportToken (iFirst i) "incorrect indent"]
      else itemReports expected rest
  end.
(** lib.go:388-407 *)
Definition indentReports (containers : list (option (list stok) * list item)) : list place_report :=
  flat_map (fun c => itemReports (expectedIndent (fst c)) (snd c)) containers.

(** lib.go:288-294; [names] are the first tokens of the names after the first *)
Fixpoint alignFrom (defaultCol : nat) (names : list stok) : list place_report :=
  match names with
  | [] => []
  | n :: rest => if negb (Nat.eqb (sCol n) defaultCol) then [reportToken n "inconsistent struct field align"] else alignFrom defaultCol rest
  end.
(** lib.go:281-296; for each struct the first tokens of its names *)
Definition alignReports (structs : list (list stok)) : list place_report :=
  flat_map (fun names => match names with [] => [] | n :: rest => alignFrom (sCol n) rest end) structs.
