(** Histories of calls on any number of integer sets, interpreted on
    mathematical sets and on the model of intset.go. *)
From Coq Require Import ZArith NArith List Bool.
From Verif Require Import Base IntSet.
Import ListNotations.
Open Scope Z_scope.

(** Variables holding sets are numbered in order of creation. *)
Inductive setop :=
| SNew (items : list Z)            (* v := NewSet(items...) / FromSlice(items) *)
| SCopyOf (i : nat)                (* v := i.Copy() *)
| SUnionF (i j : nat)              (* v := Union(i, j) *)
| SIntersectF (i j : nat)          (* v := Intersect(i, j) *)
| SSubtractF (i j : nat)           (* v := Subtract(i, j) *)
| SAddM (i : nat) (items : list Z) (* i.Add(items...) *)
| SRemoveM (i : nat) (items : list Z)
| SUnionM (i j : nat)              (* i.Union(j) *)
| SIntersectM (i j : nat)
| SSubtractM (i j : nat).

(** Mathematical sets of integers as characteristic functions. *)
Definition zset := Z -> bool.
Definition zitems (items : list Z) : zset := fun x => existsb (Z.eqb x) items.

(** A call naming a variable that does not exist is skipped (both sides). *)
Definition math_step (st : list zset) (o : setop) : list zset :=
  let get i := nth_error st i in
  match o with
  | SNew items => st ++ [zitems items]
  | SCopyOf i => match get i with Some a => st ++ [a] | _ => st end
  | SUnionF i j => match get i, get j with Some a, Some b => st ++ [fun x => a x || b x] | _, _ => st end
  | SIntersectF i j => match get i, get j with Some a, Some b => st ++ [fun x => a x && b x] | _, _ => st end
  | SSubtractF i j => match get i, get j with Some a, Some b => st ++ [fun x => a x && negb (b x)] | _, _ => st end
  | SAddM i items => match get i with Some a => upd st i (fun x => zitems items x || a x) | _ => st end
  | SRemoveM i items => match get i with Some a => upd st i (fun x => negb (zitems items x) && a x) | _ => st end
  | SUnionM i j => match get i, get j with Some a, Some b => upd st i (fun x => a x || b x) | _, _ => st end
  | SIntersectM i j => match get i, get j with Some a, Some b => upd st i (fun x => a x && b x) | _, _ => st end
  | SSubtractM i j => match get i, get j with Some a, Some b => upd st i (fun x => a x && negb (b x)) | _, _ => st end
  end.

Definition math_run (ops : list setop) : list zset := fold_left math_step ops [].

(** The same on the model; [None] = panic. *)
Definition model_step (st : list iset) (o : setop) : option (list iset) :=
  let get i := nth_error st i in
  let push r := do s <- r; Some (st ++ [s]) in
  let put i r := do s <- r; Some (upd st i s) in
  match o with
  | SNew items => push (newSet items)
  | SCopyOf i => match get i with Some a => push (Some (setCopy a)) | _ => Some st end
  | SUnionF i j => match get i, get j with Some a, Some b => push (setUnion a b) | _, _ => Some st end
  | SIntersectF i j => match get i, get j with Some a, Some b => push (setIntersect a b) | _, _ => Some st end
  | SSubtractF i j => match get i, get j with Some a, Some b => push (setSubtract a b) | _, _ => Some st end
  | SAddM i items => match get i with Some a => put i (setAdd a items) | _ => Some st end
  | SRemoveM i items => match get i with Some a => put i (setRemove a items) | _ => Some st end
  | SUnionM i j => match get i, get j with Some a, Some b => put i (setUnion a b) | _, _ => Some st end
  | SIntersectM i j => match get i, get j with Some a, Some b => put i (setIntersect a b) | _, _ => Some st end
  | SSubtractM i j => match get i, get j with Some a, Some b => put i (setSubtract a b) | _, _ => Some st end
  end.

Definition model_run (ops : list setop) : option (list iset) :=
  fold_left (fun st o => do s <- st; model_step s o) ops (Some []).
