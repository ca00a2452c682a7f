(** Model of the checks of node definitions in /repo/langdef/parser.go: undefined and unused nodes, sets of first tokens, left
    recursion, types of tokens for states.
    - Nodes are numbered in the order of their appearance in the description (parser.go:734-751); the index of nodes (a map from
      names to items) is the list of items in the order of the numbers.
    - Loops over this map go in an arbitrary order: [order] is a list of the numbers of the nodes in the order of a loop.
    - Sets of integers ([ints.Set], see IntSet.v) are ascending lists, queues ([queue.Queue], see Queue.v) are lists.
    - A definition is the chunk of the item; [None] for a node that is mentioned and not defined.
    - [DependsOn] of an item is the set of nodes mentioned in the definition: parser.go:818 adds each of them as it is read. *)
From Coq Require Import ZArith List Bool.
From Verif Require Import Base Grammar LangBuild.
Import ListNotations.
Open Scope Z_scope.

(** parser.go:816-819, for the whole definition *)
Fixpoint dependsOn (c : chunk) : list Z :=
  match c with
  | CTok _ | CEoi => []
  | CNode i => [i]
  | CGroup _ _ l | CVar l =>
      (fix go (l : list chunk) (s : list Z) : list Z :=
         match l with
         | [] => s
         | ch :: l' => go l' (sunion s (dependsOn ch))
         end) l []
  end.

(** parser.go:21-26 *)
Record item := mkItem { iDepends : list Z; iFirst : list Z; iChunk : option chunk }.
(** parser.go:747, after the description is read *)
Definition itemOf (d : option chunk) : item :=
  mkItem (match d with Some c => dependsOn c | None => [] end) [] d.

(** Errors: indexes of nodes instead of names *)
Inductive nodeError :=
| EUndefined (nodes : list Z)       (* errors.go: unknownNodeError *)
| EUnused (nodes : list Z)          (* unusedNodeError *)
| EUnresolved (nodes : list Z)      (* unresolvedError *)
| ERecursion (nodes : list Z).      (* recursionError *)

(** Results of functions with loops: [Stuck] - a loop did not end within the given number of steps; [Crash] - index out of
    range, nil dereference. *)
Inductive outcome (A : Type) :=
| Good (x : A)
| Bad (e : nodeError)
| Stuck
| Crash.
Arguments Good {A} x. Arguments Bad {A} e. Arguments Stuck {A}. Arguments Crash {A}.
Definition obnd {A B} (m : outcome A) (f : A -> outcome B) : outcome B :=
  match m with Good x => f x | Bad e => Bad e | Stuck => Stuck | Crash => Crash end.
Definition orCrash {A} (m : option A) : outcome A := match m with Some x => Good x | None => Crash end.

(** parser.go:875-892 *)
Definition findUndefinedNodes (order : list Z) (items : list item) : outcome unit :=
  let uns := filter (fun i => match zget items i with Some it => match iChunk it with None => true | Some _ => false end | None => false end) order in
  match uns with [] => Good tt | _ => Bad (EUndefined uns) end.

(** 0 .. n-1 *)
Definition indexes (n : nat) : list Z := map Z.of_nat (seq 0 n).

(** parser.go:903-917 *)
Fixpoint reachLoop (fuel : nat) (items : list item) (queue unreached : list Z) : outcome (list Z) :=
  match fuel with
  | O => Stuck
  | S f =>
      match queue with
      | [] => Good unreached
      | index :: queue' =>
          if negb (smem index unreached) then reachLoop f items queue' unreached
          else match zget items index with
               | None => Crash
               | Some it => reachLoop f items (queue' ++ iDepends it) (sremove index unreached)
               end
      end
  end.
(** parser.go:894-925 *)
Definition findUnusedNodes (fuel : nat) (items : list item) : outcome unit :=
  obnd (reachLoop fuel items [0] (indexes (length items)))
       (fun unreached => match unreached with [] => Good tt | _ => Bad (EUnused unreached) end).

(** ** Sets of first tokens *)
Definition setItem (items : list item) (i : Z) (it : item) : outcome (list item) := orCrash (zset items i it).
(** chunk.FirstTokens() of an item with the sets found so far; nil chunks crash *)
Definition chunkFirst (items : list item) (it : item) : outcome (list Z) :=
  match iChunk it with Some c => Good (firstTokens (map iFirst items) c) | None => Crash end.

(** parser.go:935-950; [affects] is the map from a node to the nodes that depend on it *)
Fixpoint resolveStart (order : list Z) (items : list item) (affects : list (Z * list Z)) (queue : list Z) : outcome (list item * list (Z * list Z) * list Z) :=
  match order with
  | [] => Good (items, affects, queue)
  | i :: order' =>
      obnd (orCrash (zget items i)) (fun it =>
      match iDepends it with
      | [] => obnd (chunkFirst items it) (fun s =>
              obnd (setItem items i (mkItem (iDepends it) s (iChunk it))) (fun items =>
              resolveStart order' items affects (queue ++ [i])))
      | ds => resolveStart order' items
                (fold_left (fun m k => mput k (match mget k m with Some l => l ++ [i] | None => [i] end) m) ds affects) queue
      end)
  end.
(** parser.go:958-965 *)
Fixpoint resolveNode (k : Z) (affected : list Z) (items : list item) (queue : list Z) : outcome (list item * list Z) :=
  match affected with
  | [] => Good (items, queue)
  | index :: rest =>
      obnd (orCrash (zget items index)) (fun it =>
      let ds := sremove k (iDepends it) in
      obnd (setItem items index (mkItem ds (iFirst it) (iChunk it))) (fun items =>
      match ds with
      | [] => obnd (chunkFirst items (mkItem ds (iFirst it) (iChunk it))) (fun s =>
              obnd (setItem items index (mkItem ds s (iChunk it))) (fun items =>
              resolveNode k rest items (queue ++ [index])))
      | _ => resolveNode k rest items queue
      end))
  end.
(** parser.go:952-966 *)
Fixpoint resolveLoop (fuel : nat) (affects : list (Z * list Z)) (queue : list Z) (items : list item) : outcome (list item) :=
  match fuel with
  | O => Stuck
  | S f =>
      match queue with
      | [] => Good items
      | k :: queue' =>
          obnd (resolveNode k (match mget k affects with Some l => l | None => [] end) items queue') (fun '(items, queue) =>
          resolveLoop f affects queue items)
      end
  end.
(** parser.go:984-991: one round *)
Fixpoint firstRound (idx : list Z) (items : list item) (added : bool) : outcome (list item * bool) :=
  match idx with
  | [] => Good (items, added)
  | i :: idx' =>
      obnd (orCrash (zget items i)) (fun it =>
      obnd (chunkFirst items it) (fun s =>
      if negb (match s with [] => true | _ => false end) && existsb (fun t => negb (smem t (iFirst it))) s
      then obnd (setItem items i (mkItem (iDepends it) (sunion (iFirst it) s) (iChunk it))) (fun items => firstRound idx' items true)
      else firstRound idx' items added))
  end.
(** parser.go:980-992 *)
Fixpoint firstLoop (fuel : nat) (idx : list Z) (items : list item) : outcome (list item) :=
  match fuel with
  | O => Stuck
  | S f => obnd (firstRound idx items false) (fun '(items, added) => if added then firstLoop f idx items else Good items)
  end.
(** parser.go:927-1005; [order], [order'] are the orders of the two loops over the index of nodes *)
Definition resolveDependencies (fuel : nat) (order order' : list Z) (items : list item) : outcome (list item) :=
  obnd (resolveStart order items [] []) (fun '(items, affects, queue) =>
  obnd (resolveLoop fuel affects queue items) (fun items =>
  let idx := filter (fun i => match zget items i with Some it => match iDepends it with [] => false | _ => true end | None => false end) order' in
  match idx with
  | [] => Good items
  | _ =>
      obnd (firstLoop fuel idx items) (fun items =>
      let names := filter (fun i => match zget items i with Some it => match iFirst it with [] => true | _ => false end | None => false end) idx in
      match names with [] => Good items | _ => Bad (EUnresolved names) end)
  end)).

(** ** Left recursion *)
(** parser.go:1042-1053; the nodes of the rules of the first state.  [fuel] bounds the depth of the recursion. *)
Fixpoint ntIsRecursive (fuel : nat) (fs : list Z) (states : list entry) (index : Z) (visited : list Z) : outcome bool :=
  match fuel with
  | O => Stuck
  | S f =>
      let visited := sadd index visited in
      obnd (orCrash (zget fs index)) (fun first =>
      obnd (orCrash (zget states first)) (fun st =>
      (fix go (rs : list rule) : outcome bool :=
         match rs with
         | [] => Good false
         | r :: rs' =>
             if rNode r =? SameNode then go rs'
             else if smem (rNode r) visited then Good true
             else obnd (ntIsRecursive f fs states (rNode r) visited) (fun b => if b then Good true else go rs')
         end) (allRules st)))
  end.
(** parser.go:1023-1040 *)
Fixpoint recursiveNodes (fuel : nat) (fs : list Z) (states : list entry) (nodes : list Z) : outcome (list Z) :=
  match nodes with
  | [] => Good []
  | i :: nodes' =>
      obnd (ntIsRecursive fuel fs states i []) (fun b =>
      obnd (recursiveNodes fuel fs states nodes') (fun l => Good (if b then i :: l else l)))
  end.
Definition findRecursions (fuel : nat) (fs : list Z) (states : list entry) : outcome unit :=
  obnd (recursiveNodes fuel fs states (indexes (length fs)))
       (fun l => match l with [] => Good tt | _ => Bad (ERecursion l) end).

(** ** The checks and the construction of states, parser.go:64-68 *)
Fixpoint chunksOf (items : list item) : option (list chunk) :=
  match items with
  | [] => Some []
  | it :: r => do c <- iChunk it; do cs <- chunksOf r; Some (c :: cs)
  end.
(** results: sets of first tokens, first states, states *)
Definition checkNodes (fuel : nat) (o1 o2 o3 : list Z) (defs : list (option chunk)) : outcome (list (list Z) * list Z * pres) :=
  let items := map itemOf defs in
  obnd (findUndefinedNodes o1 items) (fun _ =>
  obnd (findUnusedNodes fuel items) (fun _ =>
  obnd (resolveDependencies fuel o2 o3 items) (fun items =>
  obnd (orCrash (chunksOf items)) (fun cs =>
  obnd (orCrash (buildNodes (map iFirst items) cs (mkPres [] 0))) (fun '(fs, p) =>
  obnd (findRecursions fuel fs (prStates p)) (fun _ => Good (map iFirst items, fs, p))))))).
