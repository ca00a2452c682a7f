(** Model of /repo/langdef/chunks.go and /repo/langdef/result.go: from definitions of nodes to
    the tables of a grammar.
    - Sets of integers ([ints.Set]) are ascending lists with no duplicates; [ints.Set] itself is
      modelled in IntSet.v and proved to behave as a set.
    - Go maps are association lists; the order of the items is the order of insertion, loops over
      a map go in this order (the results of these loops do not depend on the order: they
      update different keys or compute a set).
    - A slice of rules stored for a negative key holds one rule and may be shared by several
      states ([CopyRules] stores the same slice); it is written as its value and an identity of the
      backing array.  Contents change in [dropUnusedStates] only, for all the holders at once.
      Slices stored for non-negative keys are never shared: they grow from nil by [append]. *)
From Coq Require Import ZArith List Bool.
From Verif Require Import Base Grammar.
Import ListNotations.
Open Scope Z_scope.

(** lexer/token.go:84 *)
Definition EoiToken : Z := -3.

(** ** Sets (see IntSet.v) *)
Fixpoint sadd (x : Z) (l : list Z) : list Z :=
  match l with
  | [] => [x]
  | y :: r => if x <? y then x :: l else if x =? y then l else y :: sadd x r
  end.
Definition sunion (a b : list Z) : list Z := fold_left (fun s x => sadd x s) b a.
Definition sremove (x : Z) (l : list Z) : list Z := filter (fun y => negb (y =? x)) l.
Definition smem (x : Z) (l : list Z) : bool := existsb (Z.eqb x) l.

(** ** Maps with integer keys *)
Section Maps.
Context {V : Type}.
Fixpoint mget (k : Z) (m : list (Z * V)) : option V :=
  match m with
  | [] => None
  | (k', v) :: r => if k =? k' then Some v else mget k r
  end.
Fixpoint mput (k : Z) (v : V) (m : list (Z * V)) : list (Z * V) :=
  match m with
  | [] => [(k, v)]
  | (k', v') :: r => if k =? k' then (k, v) :: r else (k', v') :: mput k v r
  end.
End Maps.

(** sort.Ints, used at result.go:158-159 *)
Fixpoint insertInt (x : Z) (l : list Z) : list Z :=
  match l with
  | [] => [x]
  | y :: r => if x <=? y then x :: l else y :: insertInt x r
  end.
Definition sortInts (l : list Z) : list Z := fold_right insertInt [] l.

(** ** Chunks, chunks.go.  A [nodeChunk] points to an item of the index of nodes; here it is
    the index of that node. *)
Inductive chunk :=
| CTok (t : Z)                                     (* chunks.go:132-148 *)
| CEoi                                             (* chunks.go:118-130 *)
| CNode (i : Z)                                    (* chunks.go:150-170 *)
| CGroup (opt rep : bool) (l : list chunk)         (* chunks.go:45-116 *)
| CVar (l : list chunk).                           (* chunks.go:9-43 *)

(** chunks.go:25-33, 67-77, 124-126, 142-144, 163-165 *)
Fixpoint isOptional (c : chunk) : bool :=
  match c with
  | CTok _ | CEoi | CNode _ => false
  | CGroup opt _ l => opt || forallb isOptional l
  | CVar l => existsb isOptional l
  end.

(** chunks.go:17-23, 55-65, 120-122, 138-140, 159-161.  [firsts] holds the sets computed so far
    for the nodes. *)
Definition firstsOf (firsts : list (list Z)) (i : Z) : list Z :=
  match zget firsts i with Some s => s | None => [] end.
Fixpoint firstTokens (firsts : list (list Z)) (c : chunk) : list Z :=
  match c with
  | CTok t => [t]
  | CEoi => [EoiToken]
  | CNode i => firstsOf firsts i
  | CGroup _ _ l =>
      (fix go (l : list chunk) (result : list Z) : list Z :=
         match l with
         | [] => result
         | ch :: l' =>
             let result := sunion result (firstTokens firsts ch) in
             if isOptional ch then go l' result else result
         end) l []
  | CVar l =>
      (fix go (l : list chunk) (result : list Z) : list Z :=
         match l with
         | [] => result
         | ch :: l' => go l' (sunion result (firstTokens firsts ch))
         end) l []
  end.

(** ** States under construction, result.go:10-13 *)
Record entry := mkEntry {
  eTypes : Z;
  ePos : list (Z * list rule);          (* rules for tokens (non-negative keys) *)
  eNeg : list (Z * (Z * rule))          (* rules for "any token" and end of input: identity, rule *)
}.
(** result.go:15-22; here the states and the number of arrays allocated for negative keys *)
Record pres := mkPres { prStates : list entry; prCells : Z }.

(** result.go:35-40 *)
Definition addState (p : pres) : Z * pres :=
  (zlen (prStates p), mkPres (prStates p ++ [mkEntry 0 [] []]) (prCells p)).
Definition setState (p : pres) (i : Z) (e : entry) : option pres :=
  do sts <- zset (prStates p) i e; Some (mkPres sts (prCells p)).

(** append(se.Rules[k], rs...) for k >= 0 *)
Definition appendRules (k : Z) (rs : list rule) (m : list (Z * list rule)) : list (Z * list rule) :=
  match mget k m with
  | Some old => mput k (old ++ rs) m
  | None => mput k rs m
  end.

(** result.go:100-110, one iteration *)
Definition addRule1 (p : pres) (i : Z) (st nt k : Z) : option pres :=
  do e <- zget (prStates p) i;
  let r := mkRule k st nt in
  if 0 <=? k then setState p i (mkEntry (eTypes e) (appendRules k [r] (ePos e)) (eNeg e))
  else do p' <- setState p i (mkEntry (eTypes e) (ePos e) (mput k (prCells p, r) (eNeg e)));
       Some (mkPres (prStates p') (prCells p + 1)).
(** result.go:100-110 *)
Fixpoint addRule (p : pres) (i : Z) (st nt : Z) (tokens : list Z) : option pres :=
  match tokens with
  | [] => Some p
  | k :: ks => do p <- addRule1 p i st nt k; addRule p i st nt ks
  end.
(** result.go:112-114 *)
Definition bypassRule (p : pres) (i next : Z) : option pres := addRule p i next SameNode [AnyToken].

(** result.go:116-124.  The loops update different keys. *)
Definition copyRules (p : pres) (to from : Z) : option pres :=
  do f <- zget (prStates p) from;
  do e <- zget (prStates p) to;
  let pos := fold_left (fun m '(k, rs) => appendRules k rs m) (ePos f) (ePos e) in
  let neg := fold_left (fun m '(k, cell) => mput k cell m) (eNeg f) (eNeg e) in
  setState p to (mkEntry (eTypes e) pos neg).

(** chunks.go:96-98: states for the chunks of a group but the first one *)
Fixpoint addStates (n : nat) (p : pres) : list Z * pres :=
  match n with
  | O => ([], p)
  | S n' => let '(i, p) := addState p in
            let '(is, p) := addStates n' p in
            (i :: is, p)
  end.

(** chunks.go:108-112: for i := totalChunks - 2; i >= 0; i--; the chunks and their states *)
Fixpoint copyBack (l : list chunk) (states : list Z) (p : pres) : option pres :=
  match l, states with
  | c :: ((_ :: _) as l'), s :: ((s' :: _) as states') =>
      do p <- copyBack l' states' p;
      if isOptional c then copyRules p s s' else Some p
  | _, _ => Some p
  end.

(** chunks.go:39-43, 83-116, 128-130, 146-148, 167-170.  [None] = panic. *)
Fixpoint buildStates (firsts : list (list Z)) (c : chunk) (stateIndex nextIndex : Z) (p : pres) {struct c} : option pres :=
  match c with
  | CTok t => addRule p stateIndex nextIndex SameNode [t]
  | CEoi => addRule p stateIndex FinalState SameNode [EoiToken]
  | CNode i => addRule p stateIndex nextIndex i (firstsOf firsts i)
  | CVar l =>
      (fix go (l : list chunk) (p : pres) : option pres :=
         match l with
         | [] => Some p
         | ch :: l' => do p <- buildStates firsts ch stateIndex nextIndex p; go l' p
         end) l p
  | CGroup opt rep l =>
      let tailIndex := if rep then stateIndex else nextIndex in
      let needExtraRule := rep && (1 <? zlen l) in
      let '(first, p) := if needExtraRule then addState p else (stateIndex, p) in
      let '(rest, p) := addStates (length l - 1) p in
      let states := first :: rest in
      do p <- (fix go (l : list chunk) (states : list Z) (p : pres) : option pres :=
                 match l, states with
                 | [], _ => Some p
                 | ch :: l', s :: states' =>
                     do p <- buildStates firsts ch s (hd tailIndex states') p;
                     go l' states' p
                 | _, [] => None
                 end) l states p;
      do lastChunk <- zget l (zlen l - 1);
      do lastState <- zget states (zlen l - 1);
      do p <- (if isOptional lastChunk then bypassRule p lastState tailIndex else Some p);
      do p <- copyBack l states p;
      if needExtraRule then copyRules p stateIndex first else Some p
  end.

(** parser.go:1007-1021: the definitions of the nodes in the order of the nodes; returns first
    states of the nodes *)
Fixpoint buildNodes (firsts : list (list Z)) (defs : list chunk) (p : pres) : option (list Z * pres) :=
  match defs with
  | [] => Some ([], p)
  | d :: ds =>
      let '(first, p) := addState p in
      do p <- buildStates firsts d first FinalState p;
      do (fs, p) <- buildNodes firsts ds p;
      Some (first :: fs, p)
  end.

(** ** Tables *)
(** rules of a state: the keys of the map, the slice stored for a key *)
Definition entryKeys (e : entry) : list Z := map fst (ePos e) ++ map fst (eNeg e).
Definition entryRules (e : entry) (k : Z) : list rule :=
  match mget k (ePos e) with
  | Some rs => rs
  | None => match mget k (eNeg e) with Some (_, r) => [r] | None => [] end
  end.
Definition allRules (e : entry) : list rule := concat (map snd (ePos e)) ++ map (fun x => snd (snd x)) (eNeg e).

(** result.go:57-70 *)
Definition usedStates (nodes : list Z) (states : list entry) : list Z :=
  let s := fold_left (fun s f => sadd f s) nodes [] in
  fold_left (fun s e => fold_left (fun s r => if 0 <=? rState r then sadd (rState r) s else s) (allRules e) s) states s.

(** result.go:77-84.  States are moved in place towards the beginning. *)
Fixpoint moveStates (uss : list Z) (states : list entry) (newIndexes : list Z) (cur : Z) : option (list entry * list Z * Z) :=
  match uss with
  | [] => Some (states, newIndexes, cur)
  | i :: uss' =>
      do e <- zget states i;
      do states <- zset states cur e;
      do newIndexes <- zset newIndexes i cur;
      moveStates uss' states newIndexes (cur + 1)
  end.

Fixpoint mapM {A B} (f : A -> option B) (l : list A) : option (list B) :=
  match l with
  | [] => Some []
  | x :: l' => do y <- f x; do ys <- mapM f l'; Some (y :: ys)
  end.

(** result.go:92-94 *)
Definition remapRule (newIndexes : list Z) (r : rule) : option rule :=
  if 0 <=? rState r then do j <- zget newIndexes (rState r); Some (mkRule (rToken r) j (rNode r)) else Some r.
(** an assignment to the element of an array seen by all the slices backed by it *)
Definition setCell (id : Z) (r : rule) (states : list entry) : list entry :=
  map (fun e => mkEntry (eTypes e) (ePos e)
                  (map (fun '(k, (i, r')) => (k, (i, if i =? id then r else r'))) (eNeg e))) states.
Fixpoint remapNeg (newIndexes : list Z) (keys : list Z) (si : Z) (states : list entry) : option (list entry) :=
  match keys with
  | [] => Some states
  | k :: keys' =>
      do e <- zget states si;
      do (id, r) <- mget k (eNeg e);
      do r' <- remapRule newIndexes r;
      remapNeg newIndexes keys' si (setCell id r' states)
  end.
(** result.go:89-97 *)
Fixpoint remapStates (newIndexes : list Z) (n : nat) (si : Z) (states : list entry) : option (list entry) :=
  match n with
  | O => Some states
  | S n' =>
      do e <- zget states si;
      do pos <- mapM (fun '(k, rs) => do rs' <- mapM (remapRule newIndexes) rs; Some (k, rs')) (ePos e);
      do states <- zset states si (mkEntry (eTypes e) pos (eNeg e));
      do states <- remapNeg newIndexes (map fst (eNeg e)) si states;
      remapStates newIndexes n' (si + 1) states
  end.

(** result.go:56-98 *)
Definition dropUnusedStates (nodes : list Z) (states : list entry) : option (list Z * list entry) :=
  let uss := usedStates nodes states in
  if zlen uss =? zlen states then Some (nodes, states)
  else
    do newIndexes <- zmake 0 (zlen states);
    do (states, newIndexes, cur) <- moveStates uss states newIndexes 0;
    do states <- zslice states 0 cur;
    do nodes <- mapM (fun f => zget newIndexes f) nodes;
    do states <- remapStates newIndexes (length states) 0 states;
    Some (nodes, states).

(** result.go:147-161 *)
Definition rmKeys (e : entry) : list Z * list Z :=
  let ks := entryKeys e in
  let many k := 1 <? zlen (entryRules e k) in
  (sortInts (filter (fun k => negb (many k)) ks), sortInts (filter many ks)).

(** result.go:137-144 *)
Fixpoint writeMulti (e : entry) (mkeys : list Z) (rstart : Z) (rules : list rule) (multi : list multiRule) : list rule * list multiRule :=
  match mkeys with
  | [] => (rules, multi)
  | k :: ks =>
      let rs := entryRules e k in
      let mrlen := zlen rs in
      writeMulti e ks (rstart + mrlen) (rules ++ rs) (multi ++ [mkMulti k rstart (rstart + mrlen)])
  end.

(** result.go:126-145, 163-173 *)
Definition buildState (e : entry) (rules : list rule) (multi : list multiRule) : option (state * list rule * list multiRule) :=
  let '(rkeys, mkeys) := rmKeys e in
  let erlen := zlen rkeys in
  let emlen := zlen mkeys in
  let rstart := if 0 <? erlen then zlen rules else 0 in
  let mstart := if 0 <? emlen then zlen multi else 0 in
  let st := mkState (eTypes e) mstart (mstart + emlen) rstart (rstart + erlen) in
  do rs <- mapM (fun k => zget (entryRules e k) 0) rkeys;
  let rules := rules ++ rs in
  let '(rules, multi) := writeMulti e mkeys (zlen rules) rules multi in
  Some (st, rules, multi).

(** result.go:50-52 *)
Fixpoint writeStates (es : list entry) (states : list state) (rules : list rule) (multi : list multiRule)
    : option (list state * list rule * list multiRule) :=
  match es with
  | [] => Some (states, rules, multi)
  | e :: es' =>
      do (st, rules, multi) <- buildState e rules multi;
      writeStates es' (states ++ [st]) rules multi
  end.

(** result.go:42-54; [names] are the names of the nodes, [nodes] their first states *)
Definition buildGrammar (tokens : list gtoken) (layers : list glayer) (names : list name) (nodes : list Z) (states : list entry) : option grammar :=
  do (nodes, states) <- dropUnusedStates nodes states;
  do (sts, rules, multi) <- writeStates states [] [] [];
  Some (mkGrammar tokens layers (map (fun '(n, f) => mkNode n f) (combine names nodes)) sts multi rules).
