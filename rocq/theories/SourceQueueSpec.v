(** What a queue of sources is, on plain lists of (source, position), and the
    driver feeding the same history to the list and to the model. *)
From Coq Require Import ZArith List Bool.
From Verif Require Import Base Queue SourceQueue.
Import ListNotations.
Open Scope Z_scope.

Section Spec.
Context {S : Type} (slen : S -> Z).

(** One API call.  [SqRestore k]: restore the [k]-th snapshot taken so far
    (counted from the latest), ignored when there is none. *)
Inductive sqop :=
| SqAppend (s : option S) | SqPrepend (s : option S) | SqNext
| SqSkip (n : Z) | SqRewind (n : Z) | SqSeek (n : Z)
| SqSnapshot | SqRestore (k : nat)
| SqObserve.

Inductive sqret := RNone | RMore (b : bool)
| RState (source : option S) (pos : Z) (isEmpty eof : bool).

(** The abstract queue: sources in the order they will be processed, each with
    its current position; the first one is current. *)
Definition aq := list (S * Z).
Definition has_text (x : S * Z) : bool := negb (slen (fst x) =? 0).

(** A source without text is kept only when nothing else is there. *)
Definition a_append (l : aq) (s : S) : aq :=
  let l' := filter has_text l in
  if has_text (s, 0) then l' ++ [(s, 0)] else match l' with [] => [(s, 0)] | _ => l' end.
Definition a_prepend (l : aq) (s : S) : aq :=
  let l' := filter has_text l in
  if has_text (s, 0) then (s, 0) :: l' else match l' with [] => [(s, 0)] | _ => l' end.
Definition a_move (l : aq) (f : Z -> Z) : aq :=
  match l with [] => [] | (s, p) :: r => (s, Z.max 0 (Z.min (slen s) (f p))) :: r end.

Definition a_step (st : aq * list aq) (o : sqop) : (aq * list aq) * sqret :=
  let '(l, snaps) := st in
  match o with
  | SqAppend None | SqPrepend None => (st, RNone)
  | SqAppend (Some s) => ((a_append l s, snaps), RNone)
  | SqPrepend (Some s) => ((a_prepend l s, snaps), RNone)
  | SqNext => ((tl l, snaps), RMore (match tl l with [] => false | _ => true end))
  | SqSkip n => ((a_move l (fun p => p + Z.max 0 n), snaps), RNone)
  | SqRewind n => ((a_move l (fun p => p - Z.max 0 n), snaps), RNone)
  | SqSeek n => ((a_move l (fun _ => n), snaps), RNone)
  | SqSnapshot => ((l, l :: snaps), RNone)
  | SqRestore k => ((nth k snaps l, snaps), RNone)
  | SqObserve =>
      (st, match l with
           | [] => RState None 0 true true
           | (s, p) :: _ => RState (Some s) p false (p =? slen s)
           end)
  end.

Fixpoint a_run (st : aq * list aq) (ops : list sqop) : (aq * list aq) * list sqret :=
  match ops with
  | [] => (st, [])
  | o :: r => let (st1, a) := a_step st o in
              let (st2, b) := a_run st1 r in (st2, a :: b)
  end.

(** No queue in the history has 2^31 sources. *)
Fixpoint a_bounded (st : aq * list aq) (ops : list sqop) : Prop :=
  Z.of_nat (length (fst st)) < 2 ^ 31 /\
  match ops with [] => True | o :: r => a_bounded (fst (a_step st o)) r end.

(** The same calls on the model. *)
Definition sq_step (st : @squeue S * list (@snapshot S)) (o : sqop)
  : option ((@squeue S * list (@snapshot S)) * sqret) :=
  let '(q, snaps) := st in
  match o with
  | SqAppend s => do q' <- sqAppend slen q s; Some ((q', snaps), RNone)
  | SqPrepend s => do q' <- sqPrepend slen q s; Some ((q', snaps), RNone)
  | SqNext => do (q', b) <- sqNextSource q; Some ((q', snaps), RMore b)
  | SqSkip n => Some ((sqSkip slen q n, snaps), RNone)
  | SqRewind n => Some ((sqRewind q n, snaps), RNone)
  | SqSeek n => Some ((sqSeek slen q n, snaps), RNone)
  | SqSnapshot => do sn <- sqSnapshot q; Some ((q, sn :: snaps), RNone)
  | SqRestore k =>
      match nth_error snaps k with
      | None => Some (st, RNone)
      | Some sn => do q' <- sqRestore q sn; Some ((q', snaps), RNone)
      end
  | SqObserve => Some (st, RState (scur q) (spos q) (sqIsEmpty q) (sqEof slen q))
  end.

Fixpoint sq_run st (ops : list sqop) :=
  match ops with
  | [] => Some (st, [])
  | o :: r => do (st1, a) <- sq_step st o;
              do (st2, b) <- sq_run st1 r; Some (st2, a :: b)
  end.

End Spec.
Arguments sqop S : clear implicits.
Arguments sqret S : clear implicits.
Arguments aq S : clear implicits.
