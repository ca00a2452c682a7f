(** Model of the source queue of /repo/source/source.go.
    A *Source is an element of a type [S] (pointer identity) with its length;
    nil is [None]. *)
From Coq Require Import ZArith List Bool.
From Verif Require Import Base Queue.
Import ListNotations.
Open Scope Z_scope.

Section SQ.
Context {S : Type} (slen : S -> Z).

(** source.go:186-189 and its zero value *)
Definition qitem : Type := option S * Z.
Definition qitem0 : qitem := (None, 0).

(** source.go:199-203 *)
Record squeue := mkSQ { sq : queue qitem; scur : option S; spos : Z }.

(** source.go:192-196 *)
Record snapshot := mkSnap { snItems : list qitem; snSource : option S; snPos : Z }.

(** source.go:206-208 *)
Definition sqNew : option squeue := do q <- qNew qitem0 []; Some (mkSQ q None 0).

(** [q.source == nil || q.source.Len() == 0] *)
Definition curEmpty (q : squeue) : bool :=
  match scur q with None => true | Some s => slen s =? 0 end.

(** source.go:238-248 *)
Definition sqNextSource (q : squeue) : option (squeue * bool) :=
  do (i, r) <- qFirst qitem0 (sq q);
  match r with
  | None => Some (mkSQ i None 0, false)
  | Some qi => Some (mkSQ i (fst qi) (snd qi), true)
  end.

(** source.go:252-264 *)
Definition sqAppend (q : squeue) (s : option S) : option squeue :=
  match s with
  | None => Some q
  | Some s' =>
      if (slen s' =? 0) && negb (curEmpty q) then Some q
      else if curEmpty q then Some (mkSQ (sq q) s 0)
      else do i <- qAppend qitem0 (sq q) (s, 0); Some (mkSQ i (scur q) (spos q))
  end.

(** source.go:269-282 *)
Definition sqPrepend (q : squeue) (s : option S) : option squeue :=
  match s with
  | None => Some q
  | Some s' =>
      let curNonEmpty := match scur q with None => false | Some c => 0 <? slen c end in
      if (slen s' =? 0) && curNonEmpty then Some q
      else
        do i <- (if (curNonEmpty : bool) then qPrepend qitem0 (sq q) (scur q, spos q) else Some (sq q));
        Some (mkSQ i s 0)
  end.

(** source.go:285-287 *)
Definition sqIsEmpty (q : squeue) : bool := match scur q with None => true | Some _ => false end.

(** source.go:290-292 *)
Definition sqEof (q : squeue) : bool :=
  match scur q with None => true | Some s => slen s <=? spos q end.

(** source.go:306-315 *)
Definition sqSkip (q : squeue) (size : Z) : squeue :=
  match scur q with
  | None => q
  | Some s =>
      if size <=? 0 then q
      else let p := spos q + size in
           mkSQ (sq q) (scur q) (if slen s <=? p then slen s else p)
  end.

(** source.go:320-330 *)
Definition sqRewind (q : squeue) (size : Z) : squeue :=
  match scur q with
  | None => q
  | Some s =>
      if size <=? 0 then q
      else mkSQ (sq q) (scur q) (if spos q <=? size then 0 else spos q - size)
  end.

(** source.go:335-350 *)
Definition sqSeek (q : squeue) (p : Z) : squeue :=
  match scur q with
  | None => q
  | Some s =>
      mkSQ (sq q) (scur q) (if p <=? 0 then 0 else if slen s <? p then slen s else p)
  end.

(** source.go:363-365 *)
Definition sqSnapshot (q : squeue) : option snapshot :=
  do l <- qItems qitem0 (sq q); Some (mkSnap l (scur q) (spos q)).

(** source.go:368-372 *)
Definition sqRestore (q : squeue) (sn : snapshot) : option squeue :=
  do i <- qFill qitem0 (snItems sn); Some (mkSQ i (snSource sn) (snPos sn)).

End SQ.
