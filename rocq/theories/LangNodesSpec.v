(** Specification: nodes of a description, what they refer to, what strings they stand for, left recursion. *)
From Coq Require Import ZArith List Bool Relations.
From Verif Require Import Base Grammar LangBuild LangSpec.
Import ListNotations.
Open Scope Z_scope.

(** A description: definitions of the nodes, the first one is the root; [None] for a node that is mentioned and not
    defined. *)
Section D.
Variable defs : list (option chunk).

Definition defined (i : Z) (d : chunk) : Prop := zget defs i = Some (Some d).
(** the definition of [i] mentions [j] *)
Definition refers (i j : Z) : Prop := exists d, defined i d /\ mentions d j.
Definition reachable (i : Z) : Prop := clos_refl_trans Z refers 0 i.
(** Definitions are written ones; nodes mentioned are in the list; a node not defined is mentioned in some definition. *)
Record described : Prop := mkDescribed {
  ds_written : forall i d, defined i d -> written d;
  ds_refers : forall i j, refers i j -> 0 <= j < zlen defs;
  ds_listed : forall j, zget defs j = Some None -> exists i, refers i j
}.

(** ** First tokens *)
(** Strings of a definition; nested nodes are symbols. *)
Definition stringOf (d : chunk) (w : list sym) : Prop := derives (fun _ _ => True) d w.
(** A token (the end of input included) the node may begin with: the first symbol of some string of the definition, or a first
    token of the node that is the first symbol of some string. *)
Inductive firstToken : Z -> Z -> Prop :=
| FT_token i d t w : defined i d -> stringOf d (STok t :: w) -> firstToken i t
| FT_eoi i d w : defined i d -> stringOf d (SEoi :: w) -> firstToken i EoiToken
| FT_nested i d j u w t : defined i d -> stringOf d (SNode j u :: w) -> firstToken j t -> firstToken i t.

(** Strings of tokens a definition stands for: nested nodes replaced by their strings *)
Inductive produces : chunk -> list Z -> Prop :=
| P_token t : produces (CTok t) [t]
| P_eoi : produces CEoi [EoiToken]
| P_nested i d w : defined i d -> produces d w -> produces (CNode i) w
| P_variant l c w : In c l -> produces c w -> produces (CVar l) w
| P_once opt rep l w : producesSeq l w -> produces (CGroup opt rep l) w
| P_never rep l : produces (CGroup true rep l) []
| P_again opt l w v : producesSeq l w -> produces (CGroup opt true l) v -> produces (CGroup opt true l) (w ++ v)
with producesSeq : list chunk -> list Z -> Prop :=
| PS_nil : producesSeq [] []
| PS_cons c l w v : produces c w -> producesSeq l v -> producesSeq (c :: l) (w ++ v).
(** no node stands for the empty string *)
Definition neverEmpty : Prop := forall i, ~ produces (CNode i) [].
(** every node stands for some string *)
Definition productive : Prop := forall i, 0 <= i < zlen defs -> exists w, produces (CNode i) w.
(** every node may begin with a token that is not the end of input *)
Definition tokenFirst : Prop := forall i, 0 <= i < zlen defs -> exists t, 0 <= t /\ firstToken i t.

(** ** Left recursion *)
(** [j] stands at the beginning of some string of [i]: nothing is before it *)
Definition leftCorner (i j : Z) : Prop := exists d u w, defined i d /\ stringOf d (SNode j u :: w).
(** the same, nodes that may be empty are allowed before it *)
Definition emptyNode (x : sym) : Prop := exists i u, x = SNode i u /\ produces (CNode i) [].
Definition leftCornerOrEmpty (i j : Z) : Prop := exists d v u w, defined i d /\ stringOf d (v ++ SNode j u :: w) /\ Forall emptyNode v.
Definition leftRecursive (corner : Z -> Z -> Prop) (i : Z) : Prop := clos_trans Z corner i i.
End D.
