(** Model of /repo/source/source.go: Source, LineCol, Pos, NormalizeNls. *)
From Coq Require Import ZArith List Bool.
From Verif Require Import Base Utf8.
Import ListNotations.
Open Scope Z_scope.

Definition LF : Z := 10.
Definition CR : Z := 13.

(** source.go:12-17 without the name (never read by these functions). *)
Record src := mkSrc { content : list Z; lineStarts : list Z; prevLineIndex : Z }.

(** bytes.Count(content, "\n") *)
Fixpoint countLF (l : list Z) : Z :=
  match l with [] => 0 | b :: r => (if b =? LF then 1 else 0) + countLF r end.

(** source.go:29-34, one iteration per element of [rest] = content[i:]. *)
Fixpoint fillStarts (rest : list Z) (i j lineCnt : Z) (starts : list Z) : option (list Z) :=
  match rest with
  | [] => Some starts
  | b :: r =>
      if j <? lineCnt then
        if b =? LF then
          do s <- zset starts j (i + 1); fillStarts r (i + 1) (j + 1) lineCnt s
        else fillStarts r (i + 1) j lineCnt starts
      else Some starts
  end.

(** source.go:23-37 *)
Definition newSrc (c : list Z) : option src :=
  let lineCnt := countLF c + 1 in
  do s0 <- zmake 0 lineCnt;
  do s1 <- zset s0 0 0;
  do s2 <- fillStarts c 0 1 lineCnt s1;
  Some (mkSrc c s2 (-1)).

(** source.go:108-110; fuel = number of lines + 1 *)
Fixpoint scanLines (fuel : nat) (starts : list Z) (lineIndex last pos : Z) : option Z :=
  match fuel with
  | O => None
  | S f =>
      if lineIndex <=? last then
        do v <- zget starts lineIndex;
        if v <=? pos then scanLines f starts (lineIndex + 1) last pos else Some lineIndex
      else Some lineIndex
  end.

(** source.go:124-137; the result is (index, returned early). *)
Fixpoint searchLines (fuel : nat) (starts : list Z) (leftIndex rightIndex index pos : Z) : option (Z * bool) :=
  if leftIndex <? rightIndex then
    match fuel with
    | O => None
    | S f =>
        let index := Z.shiftr (leftIndex + rightIndex + 1) 1 in
        do lineStart <- zget starts index;
        if lineStart =? pos then Some (index, true)
        else if lineStart <? pos then searchLines f starts index rightIndex index pos
        else searchLines f starts leftIndex (index - 1) (index - 1) pos
    end
  else Some (index, false).

(** source.go:104-140; returns the updated source and the index. *)
Definition findLineIndex (s : src) (pos : Z) : option (src * Z) :=
  let n := length (lineStarts s) in
  let last := zlen (lineStarts s) - 1 in
  do usePrev <-
    (if 0 <=? prevLineIndex s then
       do v <- zget (lineStarts s) (prevLineIndex s); Some (v <=? pos)
     else Some false);
  if (usePrev : bool) then
    do i <- scanLines (S n) (lineStarts s) (prevLineIndex s) last pos;
    let i := i - 1 in
    Some (mkSrc (content s) (lineStarts s) i, i)
  else
    let right := if 0 <=? prevLineIndex s then prevLineIndex s else last in
    do r <- searchLines n (lineStarts s) 0 right 0 pos;
    let '(index, early) := r in
    if (early : bool) then Some (s, index)
    else Some (mkSrc (content s) (lineStarts s) index, index).

(** source.go:59-73 *)
Definition lineCol (s : src) (pos : Z) : option (src * (Z * Z)) :=
  do p <-
    (if pos <? 0 then Some (s, 0, 0)
     else if zlen (content s) <=? pos then
       Some (s, zlen (content s), zlen (lineStarts s) - 1)
     else do r <- findLineIndex s pos; let '(s', i) := r in Some (s', pos, i));
  let '(s', pos', lineIndex) := p in
  do lineStart <- zget (lineStarts s') lineIndex;
  do sl <- zslice (content s') lineStart pos';
  Some (s', (lineIndex + 1, runeCount sl + 1)).

(** source.go:89-97; [col] strictly decreases, so fuel = col. *)
Fixpoint posLoop (fuel : nat) (c : list Z) (col res l : Z) : option Z :=
  if (1 <? col) && (res <? l) then
    match fuel with
    | O => None
    | S f =>
        do sl <- zslice c res l;
        let '(r, rl) := decodeRune sl in
        if r =? LF then Some res else posLoop f c (col - 1) (res + rl) l
    end
  else Some res.

(** source.go:78-102 *)
Definition srcPos (s : src) (line col : Z) : option Z :=
  if (line <=? 0) || (col <=? 0) then Some 0
  else
    let l := zlen (content s) in
    if zlen (lineStarts s) <? line then Some l
    else
      do res <- zget (lineStarts s) (line - 1);
      do res' <- posLoop (Z.to_nat col) (content s) col res l;
      Some (if l <? res' then l else res').

(** source.go:385-404: one step of the range loop; the element is read from
    the live buffer. *)
Definition nlStep (st : list Z * Z * Z * bool) (i : Z) : option (list Z * Z * Z * bool) :=
  let '(buf, wPos, rPos, crFound) := st in
  do b <- zget buf i;
  if b =? LF then
    if (crFound : bool) then
      do buf' <-
        (if negb (rPos =? 0) then
           do sl <- zslice buf rPos i; zcopy buf wPos sl
         else Some buf);
      Some (buf', wPos + (i - rPos), i + 1, false)
    else Some (buf, wPos, rPos, crFound)
  else if b =? CR then
    do buf' <- zset buf i LF; Some (buf', wPos, rPos, true)
  else Some (buf, wPos, rPos, false).

Fixpoint nlLoop (n : nat) (i : Z) (st : list Z * Z * Z * bool) : option (list Z * Z * Z * bool) :=
  match n with
  | O => Some st
  | S n' => do st' <- nlStep st i; nlLoop n' (i + 1) st'
  end.

(** source.go:375-411 *)
Definition normalizeNls (c : list Z) : option (list Z) :=
  do st <- nlLoop (length c) 0 (c, 0, 0, false);
  let '(buf, wPos, rPos, _) := st in
  let l := zlen c in
  do buf' <-
    (if negb (rPos =? 0) && (rPos <? l) then
       do sl <- zslice buf rPos l; zcopy buf wPos sl
     else Some buf);
  zslice buf' 0 (l - rPos + wPos).
