(** What a deque is, stated on plain lists, and the driver that feeds the same
    history of calls to the list and to the model of queue.go. *)
From Coq Require Import ZArith List Bool.
From Verif Require Import Base Queue.
Import ListNotations.
Open Scope Z_scope.

(** One API call. *)
Inductive qop (T : Type) :=
| OpAppend (x : T) | OpPrepend (x : T) | OpFill (xs : list T) | OpClear
| OpFirst | OpLast | OpPeek (i : Z) | OpItems | OpLen | OpIsEmpty.
Arguments OpAppend {T}. Arguments OpPrepend {T}. Arguments OpFill {T}. Arguments OpClear {T}.
Arguments OpFirst {T}. Arguments OpLast {T}. Arguments OpPeek {T}. Arguments OpItems {T}.
Arguments OpLen {T}. Arguments OpIsEmpty {T}.

(** What the caller sees. [RVal None] = the (zero,false) answer. *)
Inductive qret (T : Type) :=
| RUnit | RVal (v : option T) | RList (l : list T) | RInt (n : Z) | RBool (b : bool).
Arguments RUnit {T}. Arguments RVal {T}. Arguments RList {T}. Arguments RInt {T}. Arguments RBool {T}.

Section Spec.
Context {T : Type}.

(** The intended effect of each call on a list. *)
Definition list_step (l : list T) (o : qop T) : list T * qret T :=
  match o with
  | OpAppend x => (l ++ [x], RUnit)
  | OpPrepend x => (x :: l, RUnit)
  | OpFill xs => (xs, RUnit)
  | OpClear => ([], RUnit)
  | OpFirst => (tl l, RVal (hd_error l))
  | OpLast => (removelast l, RVal (hd_error (rev l)))
  | OpPeek i =>
      (l, RVal (if 0 <=? i then nth_error l (Z.to_nat i)
                else if - Z.of_nat (length l) <=? i
                     then nth_error l (length l - Z.to_nat (- i)) else None))
  | OpItems => (l, RList l)
  | OpLen => (l, RInt (Z.of_nat (length l)))
  | OpIsEmpty => (l, RBool (match l with [] => true | _ => false end))
  end.

Fixpoint list_run (l : list T) (ops : list (qop T)) : list T * list (qret T) :=
  match ops with
  | [] => (l, [])
  | o :: r => let (l1, a) := list_step l o in
              let (l2, b) := list_run l1 r in (l2, a :: b)
  end.

(** No list in the history has 2^31 items or more. *)
Fixpoint bounded (l : list T) (ops : list (qop T)) : Prop :=
  Z.of_nat (length l) < 2 ^ 31 /\
  match ops with
  | [] => True
  | o :: r => bounded (fst (list_step l o)) r
  end.

(** The same call on the model. *)
Definition queue_step (zero : T) (q : queue T) (o : qop T) : option (queue T * qret T) :=
  match o with
  | OpAppend x => do q' <- qAppend zero q x; Some (q', RUnit)
  | OpPrepend x => do q' <- qPrepend zero q x; Some (q', RUnit)
  | OpFill xs => do q' <- qFill zero xs; Some (q', RUnit)
  | OpClear => do q' <- qClear zero; Some (q', RUnit)
  | OpFirst => do (q', v) <- qFirst zero q; Some (q', RVal v)
  | OpLast => do (q', v) <- qLast zero q; Some (q', RVal v)
  | OpPeek i => do v <- qPeek q i; Some (q, RVal v)
  | OpItems => do l <- qItems zero q; Some (q, RList l)
  | OpLen => Some (q, RInt (qLen q))
  | OpIsEmpty => Some (q, RBool (qIsEmpty q))
  end.

Fixpoint queue_run (zero : T) (q : queue T) (ops : list (qop T)) : option (queue T * list (qret T)) :=
  match ops with
  | [] => Some (q, [])
  | o :: r => do (q1, a) <- queue_step zero q o;
              do (q2, b) <- queue_run zero q1 r; Some (q2, a :: b)
  end.

(** Number of storage slots holding something else than [zero]. *)
Definition nonzero_slots (eqb : T -> T -> bool) (zero : T) (q : queue T) : nat :=
  length (filter (fun x => negb (eqb x zero)) (qitems q)).

End Spec.
