(** Model of /repo/internal/queue/queue.go. *)
From Coq Require Import ZArith List Bool.
From Verif Require Import Base.
Import ListNotations.
Open Scope Z_scope.

Section Queue.
Context {T : Type} (zero : T).

(** queue.go:5-10.  The [zero] field is the section variable.  Go [int] is
    [Z]; the low bits of two's complement are what [Z.land] uses. *)
Record queue := mkQ { qitems : list T; qsize : Z; qhead : Z; qtail : Z }.

(** queue.go:3 *)
Definition minSize : Z := 3.

(** queue.go:111-122 *)
Definition computeSize (length : Z) : Z :=
  if length <=? minSize then minSize
  else
    let l1 := Z.lor length (Z.shiftr length 1) in
    let l2 := Z.lor l1 (Z.shiftr l1 2) in
    let l3 := Z.lor l2 (Z.shiftr l2 4) in
    let l4 := Z.lor l3 (Z.shiftr l3 8) in
    Z.lor l4 (Z.shiftr l4 16).

(** queue.go:98-105.  [None] is a panic; none is reachable (see QueueProofs). *)
Definition qFill (items : list T) : option queue :=
  let l := zlen items in
  let size := computeSize l in
  do a <- zmake zero (size + 1);
  do a' <- zcopy a 0 items;
  Some (mkQ a' size 0 l).

(** queue.go:12-16 *)
Definition qNew (items : list T) : option queue := qFill items.

(** queue.go:107-109 *)
Definition qClear : option queue := qFill [].

(** queue.go:18-20 *)
Definition qIsEmpty (q : queue) : bool := qhead q =? qtail q.

(** queue.go:22-24 *)
Definition qLen (q : queue) : Z := Z.land (qtail q + qsize q + 1 - qhead q) (qsize q).

(** queue.go:26-36 *)
Definition qItems (q : queue) : option (list T) :=
  let l := qLen q in
  do result <- zmake zero l;
  if qhead q <=? qtail q then
    do s <- zslice (qitems q) (qhead q) (qtail q);
    zcopy result 0 s
  else
    do s1 <- zslice (qitems q) (qhead q) (qsize q + 1);
    do r1 <- zcopy result 0 s1;
    do s2 <- zslice (qitems q) 0 (qtail q);
    zcopy r1 (qsize q - qhead q + 1) s2.

(** queue.go:124-134 *)
Definition qGrow (q : queue) : option queue :=
  do items <- zmake zero (Z.shiftl (qsize q + 1) 1);
  do s1 <- zslice (qitems q) (qhead q) (zlen (qitems q));
  do items1 <- zcopy items 0 s1;
  do items2 <-
    (if 0 <? qhead q then
       do s2 <- zslice (qitems q) 0 (qhead q);
       zcopy items1 (qsize q + 1 - qhead q) s2
     else Some items1);
  let tail := qsize q + 1 in
  Some (mkQ items2 (qsize q + tail) 0 tail).

(** queue.go:38-45 *)
Definition qAppend (q : queue) (item : T) : option queue :=
  do items <- zset (qitems q) (qtail q) item;
  let tail := Z.land (qtail q + 1) (qsize q) in
  let q' := mkQ items (qsize q) (qhead q) tail in
  if tail =? qhead q then qGrow q' else Some q'.

(** queue.go:47-54 *)
Definition qPrepend (q : queue) (item : T) : option queue :=
  let head := Z.land (qhead q - 1) (qsize q) in
  do items <- zset (qitems q) head item;
  let q' := mkQ items (qsize q) head (qtail q) in
  if head =? qtail q then qGrow q' else Some q'.

(** queue.go:56-73; the pair (zero,false) is [None] in the returned option. *)
Definition qFirst (q : queue) : option (queue * option T) :=
  if qhead q =? qtail q then Some (q, None)
  else
    do result <- zget (qitems q) (qhead q);
    do items <- zset (qitems q) (qhead q) zero;
    let head := Z.land (qhead q + 1) (qsize q) in
    if (head =? 0) && (minSize <? qsize q) && (Z.shiftl (qtail q) 2 <=? qsize q) then
      let size := computeSize (Z.shiftl (qtail q) 1) in
      do items' <- zmake zero (size + 1);
      do s <- zslice items 0 (qtail q);
      do items'' <- zcopy items' 0 s;
      Some (mkQ items'' size head (qtail q), Some result)
    else
      Some (mkQ items (qsize q) head (qtail q), Some result).

(** queue.go:75-84 *)
Definition qLast (q : queue) : option (queue * option T) :=
  if qhead q =? qtail q then Some (q, None)
  else
    let tail := Z.land (qtail q - 1) (qsize q) in
    do result <- zget (qitems q) tail;
    do items <- zset (qitems q) tail zero;
    Some (mkQ items (qsize q) (qhead q) tail, Some result).

(** queue.go:86-96 *)
Definition qPeek (q : queue) (index : Z) : option (option T) :=
  let l := qLen q in
  let index := if index <? 0 then index + l else index in
  if (index <? 0) || (l <=? index) then Some None
  else
    do r <- zget (qitems q) (Z.land (qhead q + index) (qsize q));
    Some (Some r).

End Queue.
Arguments queue T : clear implicits.
