(** Model of /repo/source/source.go: LineCol called by several goroutines for the same Source.
    Tokens (lexer/token.go:11 "Immutable", :60-62 LineCol) and lexers (lexer/lexer.go:48-49 "safe for concurrent use", :92) call it.
    Source.v models a call as one step; here each access to the only field that changes, prevLineIndex, is a step, and goroutines take steps in
    any order.  Simplification: accesses are as written in the program and take effect at once (Go promises even less for data races). *)
From Coq Require Import ZArith List Bool.
From Verif Require Import Base Utf8 Source.
Import ListNotations.
Open Scope Z_scope.

(** where a goroutine is within LineCol: the access to prevLineIndex it makes next *)
Inductive pc :=
| Enter                  (* source.go:60, then :105, the first operand *)
| AtStart                (* :105, the second operand *)
| AtScan                 (* :106 *)
| AtCheck                (* :120 *)
| AtLine                 (* :121 *)
| AtRight                (* :122 *)
| AtStore (i : Z).       (* :112 or :138, then return *)
Inductive next := Go (p : pc) | Finished (r : option (Z * Z)).   (* None: panic *)

(** source.go:71-72 *)
Definition finish (s : src) (i pos : Z) : next :=
  Finished (do lineStart <- zget (lineStarts s) i; do sl <- zslice (content s) lineStart pos; Some (i + 1, runeCount sl + 1)).
(** source.go:124-139 *)
Definition search (s : src) (right pos : Z) : next :=
  match searchLines (length (lineStarts s)) (lineStarts s) 0 right 0 pos with
  | None => Finished None
  | Some (i, true) => finish s i pos
  | Some (i, false) => Go (AtStore i)
  end.
(** one step of LineCol(pos), source.go:59-73, 104-140 *)
Definition pstep (s : src) (pos : Z) (p : pc) : src * next :=
  match p with
  | Enter =>
      if pos <? 0 then (s, finish s 0 0)
      else if zlen (content s) <=? pos then (s, finish s (zlen (lineStarts s) - 1) (zlen (content s)))
      else (s, Go (if 0 <=? prevLineIndex s then AtStart else AtCheck))
  | AtStart => (s, match zget (lineStarts s) (prevLineIndex s) with None => Finished None | Some v => Go (if v <=? pos then AtScan else AtCheck) end)
  | AtScan =>
      (s, match scanLines (S (length (lineStarts s))) (lineStarts s) (prevLineIndex s) (zlen (lineStarts s) - 1) pos with
          | None => Finished None
          | Some i => Go (AtStore (i - 1))
          end)
  | AtCheck => (s, if 0 <=? prevLineIndex s then Go AtLine else search s (zlen (lineStarts s) - 1) pos)
  | AtLine => (s, match zget (lineStarts s) (prevLineIndex s) with None => Finished None | Some _ => Go AtRight end)
  | AtRight => (s, search s (prevLineIndex s) pos)
  | AtStore i => (mkSrc (content s) (lineStarts s) i, finish s i pos)
  end.

(** a goroutine: positions to ask for, the current one first; answers got.  After a panic it asks nothing. *)
Record thread := mkThread { asks : list Z; at_ : pc; got : list (option (Z * Z)) }.
Definition call (l : list Z) : thread := mkThread l Enter [].
Definition tstep (s : src) (t : thread) : src * thread :=
  match asks t with
  | [] => (s, t)
  | pos :: rest =>
      match pstep s pos (at_ t) with
      | (s', Go p) => (s', mkThread (pos :: rest) p (got t))
      | (s', Finished r) => (s', mkThread (match r with Some _ => rest | None => [] end) Enter (got t ++ [r]))
      end
  end.
(** goroutine [i] takes a step *)
Definition sysStep (i : nat) (x : src * list thread) : src * list thread :=
  let '(s, ts) := x in
  match nth_error ts i with
  | None => (s, ts)
  | Some t => let '(s', t') := tstep s t in (s', upd ts i t')
  end.
Fixpoint runAll (schedule : list nat) (x : src * list thread) : src * list thread :=
  match schedule with
  | [] => x
  | i :: r => runAll r (sysStep i x)
  end.
