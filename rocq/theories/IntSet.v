(** Model of /repo/internal/ints/intset.go for 64-bit [int]/[uint]
    (IntSizeShift = 6, IntSize = 64; intset.go:3-4).  [int] is [Z] (items so
    close to the limits of the type that [baseItem] + 64 overflows are outside
    the model), a chunk is an [N] below 2^64.  [None] is a Go panic. *)
From Coq Require Import ZArith NArith List Bool.
From Verif Require Import Base.
Import ListNotations.
Open Scope Z_scope.

(** intset.go:3-4 *)
Definition IntSizeShift : Z := 6.
Definition IntSize : Z := 64.

(** intset.go:6-9 *)
Record iset := mkSet { lowItem : Z; highItem : Z; chunks : list N }.

(** intset.go:11-18.  The loop clears one bit per round; fuel 64 = width of
    [uint]; running out is [None]. *)
Fixpoint countBits_loop (fuel : nat) (chunk : N) (result : Z) : option Z :=
  match fuel with
  | O => if N.eqb chunk 0 then Some result else None
  | S f => if N.eqb chunk 0 then Some result
           else countBits_loop f (N.land chunk (chunk - 1)) (result + 1)
  end.
Definition countBits (chunk : N) : option Z := countBits_loop 64 chunk 0.

(** intset.go:53-55: item & ^(IntSize - 1) *)
Definition baseItem (item : Z) : Z := Z.land item (Z.lnot (IntSize - 1)).

(** intset.go:57-80 *)
Definition allocate (s : iset) (low high : Z) : option iset :=
  let lowI := baseItem low in
  let highI := baseItem high + IntSize in
  if (lowItem s <=? lowI) && (highI <=? highItem s) then Some s
  else
    let lowI := if lowItem s <? lowI then lowItem s else lowI in
    let highI := if highI <? highItem s then highItem s else highI in
    let chunkCnt := Z.shiftr (highI - lowI) IntSizeShift in
    do cs <- zmake 0%N chunkCnt;
    do cs' <- (if negb (lowItem s =? 0) || negb (highItem s =? 0) then
                 let offset := Z.shiftr (lowItem s - lowI) IntSizeShift in
                 zcopy cs offset (chunks s)
               else Some cs);
    Some (mkSet lowI highI cs').

(** intset.go:82-84 *)
Definition chunkIndex (s : iset) (item : Z) : Z := Z.shiftr (item - lowItem s) IntSizeShift.

(** intset.go:86-88.  uint(item) & 63 = the low six bits of item. *)
Definition bitMask (item : Z) : N := N.shiftl 1 (Z.to_N (Z.land item (IntSize - 1))).

(** intset.go:90-96.  On 64-bit chunks [c & ^m] is [N.ldiff c m]. *)
Definition doSet (s : iset) (item : Z) (invert : bool) : option iset :=
  let i := chunkIndex s item in
  do c <- zget (chunks s) i;
  let c' := if invert then N.ldiff c (bitMask item) else N.lor c (bitMask item) in
  do cs <- zset (chunks s) i c';
  Some (mkSet (lowItem s) (highItem s) cs).

(** intset.go:98-111; only called with a non-empty slice, given here as
    first item and rest. *)
Definition minMax (x : Z) (rest : list Z) : Z * Z :=
  fold_left (fun '(mn, mx) item =>
               (if item <? mn then item else mn, if mx <? item then item else mx))
            rest (x, x).

(** the range loop at intset.go:120-122 and 133-135 *)
Fixpoint doSetAll (s : iset) (items : list Z) (invert : bool) : option iset :=
  match items with
  | [] => Some s
  | i :: r => do s' <- doSet s i invert; doSetAll s' r invert
  end.

(** intset.go:113-124 and 126-137 share this shape. *)
Definition addRemove (s : iset) (items : list Z) (invert : bool) : option iset :=
  match items with
  | [] => Some s
  | x :: rest =>
      let '(mn, mx) := minMax x rest in
      do s' <- allocate s mn mx;
      doSetAll s' items invert
  end.
Definition setAdd (s : iset) (items : list Z) := addRemove s items false.
Definition setRemove (s : iset) (items : list Z) := addRemove s items true.

(** intset.go:20-26 and 28-30 *)
Definition emptySet : iset := mkSet 0 0 [].
Definition newSet (items : list Z) : option iset := setAdd emptySet items.

(** intset.go:139-145 *)
Definition setContains (s : iset) (item : Z) : option bool :=
  if (item <? lowItem s) || (highItem s <=? item) then Some false
  else do c <- zget (chunks s) (chunkIndex s item);
       Some (negb (N.eqb (N.land c (bitMask item)) 0)).

(** intset.go:147-151 *)
Definition setCopy (s : iset) : iset := mkSet (lowItem s) (highItem s) (chunks s).

(** intset.go:153-161 *)
Definition isEmptyChunks (cs : list N) : bool := forallb (fun c => N.eqb c 0) cs.
(** intset.go:163-165 *)
Definition setIsEmpty (s : iset) : bool := isEmptyChunks (chunks s).

(** intset.go:199-205: compare chunks s[i..last) with t[offset..) *)
Fixpoint eqLoop (n : nat) (cs ct : list N) (i offset : Z) : option bool :=
  match n with
  | O => Some true
  | S n' =>
      do a <- zget cs i;
      do b <- zget ct offset;
      if N.eqb a b then eqLoop n' cs ct (i + 1) (offset + 1) else Some false
  end.

(** intset.go:167-207 *)
Definition setIsEqual (s t : iset) : option bool :=
  let cs := chunks s in let ct := chunks t in
  do r1 <-
    (if lowItem s <? lowItem t then
       let low := lowItem t in
       do p <- zslice cs 0 (Z.shiftr (low - lowItem s) IntSizeShift);
       Some (low, isEmptyChunks p)
     else
       let low := lowItem s in
       do p <- zslice ct 0 (Z.shiftr (low - lowItem t) IntSizeShift);
       Some (low, isEmptyChunks p));
  let '(low, e1) := r1 in
  if negb e1 then Some false else
  do r2 <-
    (if highItem t <? highItem s then
       let high := highItem t in
       let i := zlen cs - Z.shiftr (highItem s - high) IntSizeShift in
       do p <- zslice cs i (zlen cs);
       Some (high, isEmptyChunks p)
     else
       let high := highItem s in
       let i := zlen ct - Z.shiftr (highItem t - high) IntSizeShift in
       do p <- zslice ct i (zlen ct);
       Some (high, isEmptyChunks p));
  let '(high, e2) := r2 in
  if negb e2 then Some false else
  let firstIndex := Z.shiftr (low - lowItem s) IntSizeShift in
  let lastIndex := firstIndex + Z.shiftr (high - low) IntSizeShift in
  let offset := Z.shiftr (low - lowItem t) IntSizeShift in
  eqLoop (Z.to_nat (lastIndex - firstIndex)) cs ct firstIndex offset.

(** intset.go:243-246: or the chunks of [src] into [dst] from [offset] on *)
Fixpoint orLoop (dst : list N) (offset : Z) (src : list N) : option (list N) :=
  match src with
  | [] => Some dst
  | c :: r => do a <- zget dst offset;
              do dst' <- zset dst offset (N.lor a c);
              orLoop dst' (offset + 1) r
  end.

(** intset.go:220-248 *)
Definition setUnion (s t : iset) : option iset :=
  let low := if lowItem s <? lowItem t then lowItem s else lowItem t in
  let high := if highItem t <? highItem s then highItem s else highItem t in
  if low =? high then Some emptySet
  else
    do r <- allocate emptySet low (high - 1);
    let offset := Z.shiftr (lowItem s - low) IntSizeShift in
    do c1 <- zcopy (chunks r) offset (chunks s);
    let offset := Z.shiftr (lowItem t - low) IntSizeShift in
    do c2 <- orLoop c1 offset (chunks t);
    Some (mkSet (lowItem r) (highItem r) c2).

(** intset.go:278-281: for i := range result.chunks *)
Fixpoint andLoop (n : nat) (dst : list N) (i : Z) (src : list N) (offset : Z) : option (list N) :=
  match n with
  | O => Some dst
  | S n' => do a <- zget dst i;
            do b <- zget src offset;
            do dst' <- zset dst i (N.land a b);
            andLoop n' dst' (i + 1) src (offset + 1)
  end.

(** intset.go:255-283 *)
Definition setIntersect (s t : iset) : option iset :=
  let low := if lowItem t <? lowItem s then lowItem s else lowItem t in
  let high := if highItem s <? highItem t then highItem s else highItem t in
  if low =? high then Some emptySet
  else
    do r <- allocate emptySet low (high - 1);
    let offset := Z.shiftr (low - lowItem s) IntSizeShift in
    do sl <- zslice (chunks s) offset (zlen (chunks s));
    do c1 <- zcopy (chunks r) 0 sl;
    let offset := Z.shiftr (low - lowItem t) IntSizeShift in
    do c2 <- andLoop (length c1) c1 0 (chunks t) offset;
    Some (mkSet (lowItem r) (highItem r) c2).

(** intset.go:312-315 *)
Fixpoint diffLoop (n : nat) (dst : list N) (i : Z) (src : list N) (offset : Z) : option (list N) :=
  match n with
  | O => Some dst
  | S n' => do a <- zget dst i;
            do b <- zget src offset;
            do dst' <- zset dst i (N.ldiff a b);
            diffLoop n' dst' (i + 1) src (offset + 1)
  end.

(** intset.go:290-317 *)
Definition setSubtract (s t : iset) : option iset :=
  let result := setCopy s in
  let low := if lowItem t <? lowItem s then lowItem s else lowItem t in
  let high := if highItem s <? highItem t then highItem s else highItem t in
  if low =? high then Some result
  else
    let offset := Z.shiftr (low - lowItem t) IntSizeShift in
    let firstIndex := Z.shiftr (low - lowItem s) IntSizeShift in
    let lastIndex := firstIndex + Z.shiftr (high - low) IntSizeShift in
    do c <- diffLoop (Z.to_nat (lastIndex - firstIndex)) (chunks result) firstIndex (chunks t) offset;
    Some (mkSet (lowItem s) (highItem s) c).

(** The method forms (intset.go:209-218, 250-253, 285-288) overwrite the
    receiver with the result of the function forms; a Go [*Set] is an entry of
    the store in IntSetSpec. *)

(** intset.go:33-36 *)
Fixpoint countAll (cs : list N) (acc : Z) : option Z :=
  match cs with
  | [] => Some acc
  | c :: r => do n <- countBits c; countAll r (acc + n)
  end.

(** intset.go:41-48, the loop over the bits of one chunk *)
Fixpoint bitLoop (n : nat) (result : list Z) (index item : Z) (chunk : N)
  : option (list Z * Z * Z) :=
  match n with
  | O => Some (result, index, item)
  | S n' =>
      do p <- (if negb (N.eqb (N.land chunk 1) 0) then
                 do r <- zset result index item; Some (r, index + 1)
               else Some (result, index));
      let '(r, ix) := p in
      bitLoop n' r ix (item + 1) (N.shiftr chunk 1)
  end.

(** intset.go:40-49 *)
Fixpoint chunkLoop (cs : list N) (result : list Z) (index item : Z) : option (list Z) :=
  match cs with
  | [] => Some result
  | c :: r => do p <- bitLoop 64 result index item c;
              let '(res, ix, it) := p in chunkLoop r res ix it
  end.

(** intset.go:32-51 *)
Definition toSlice (s : iset) : option (list Z) :=
  do n <- countAll (chunks s) 0;
  do result <- zmake 0 n;
  chunkLoop (chunks s) result 0 (lowItem s).
