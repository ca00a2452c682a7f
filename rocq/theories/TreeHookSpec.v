(** What it is for a tree of elements to be the syntax tree reported to hooks. *)
From Coq Require Import ZArith List Bool.
From Verif Require Import Base Parser ParserSpec TreeNavSpec TreeHook.
From Verif Require Tree.
Import ListNotations.

Section Spec.
Context {Tok Inst R : Type}.
(** The element [t] with those below it is the tree [T]: same nodes, same tokens, in the same order. *)
Fixpoint mirrors (st : store Tok) (T : tree Tok Inst R) (t : rtree) {struct T} : Prop :=
  match T, t with
  | Leaf k, RT x ts => Tree.isNode (sHeap st) x = false /\ sTok st x = Some k /\ ts = []
  | Node node t0 _ _ ks, RT x ts => Tree.isNode (sHeap st) x = true /\ sName st x = node /\ sTok st x = t0 /\
      (fix all (ks : list (tree Tok Inst R)) (ts : list rtree) : Prop :=
         match ks, ts with [], [] => True | k :: ks, t :: ts => mirrors st k t /\ all ks ts | _, _ => False end) ks ts
  end.
End Spec.
