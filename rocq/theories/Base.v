(** Shared helpers: Go slices as lists indexed by [Z], with out-of-range
    accesses visible as [None] (a Go run-time panic). *)
From Coq Require Import ZArith List Lia Bool.
Import ListNotations.
Open Scope Z_scope.

Section Lists.
Context {A : Type}.

(** Go [len(l)]. *)
Definition zlen (l : list A) : Z := Z.of_nat (length l).

(** Go [l[i]] as an rvalue; [None] = index out of range panic. *)
Definition zget (l : list A) (i : Z) : option A :=
  if i <? 0 then None else nth_error l (Z.to_nat i).

(** Replace the element at a natural position (no effect when outside). *)
Fixpoint upd (l : list A) (n : nat) (x : A) : list A :=
  match l, n with
  | [], _ => []
  | _ :: t, O => x :: t
  | h :: t, S n' => h :: upd t n' x
  end.

(** Go [l[i] = x]; [None] = index out of range panic. *)
Definition zset (l : list A) (i : Z) (x : A) : option (list A) :=
  if (0 <=? i) && (i <? zlen l) then Some (upd l (Z.to_nat i) x) else None.

(** Go [l[a:b]] where the capacity of [l] is its length;
    [None] = slice bounds out of range panic. *)
Definition zslice (l : list A) (a b : Z) : option (list A) :=
  if (0 <=? a) && (a <=? b) && (b <=? zlen l)
  then Some (firstn (Z.to_nat (b - a)) (skipn (Z.to_nat a) l))
  else None.

(** Go [copy(dst[off:], src)] as an update of [dst] (the slice expression
    panics when [off] is out of range). *)
Definition zcopy (dst : list A) (off : Z) (src : list A) : option (list A) :=
  if (0 <=? off) && (off <=? zlen dst)
  then Some (firstn (Z.to_nat off) dst
             ++ firstn (length dst - Z.to_nat off) src
             ++ skipn (Z.to_nat off + length src) dst)
  else None.

(** Go [make([]T, n)] with zero value [z]; [None] = negative length panic. *)
Definition zmake (z : A) (n : Z) : option (list A) :=
  if n <? 0 then None else Some (repeat z (Z.to_nat n)).

End Lists.

(** Sequencing of computations that may panic. *)
Definition obind {A B} (o : option A) (f : A -> option B) : option B :=
  match o with Some a => f a | None => None end.
Notation "'do' x <- o ; k" := (obind o (fun x => k))
  (at level 200, x pattern, o at level 100, k at level 200, right associativity).
