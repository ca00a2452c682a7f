(** Specification of the parsing process: syntax trees, the calls of hooks that report a
    tree, trees that are derivations of a grammar, streams of tokens. *)
From Coq Require Import ZArith List Bool.
From Verif Require Import Base Grammar RulesSpec Parser.
Import ListNotations.
Open Scope Z_scope.

Definition prefix {A} (l m : list A) : Prop := exists r, m = l ++ r.

Section Trees.
Context {Tok E Inst R : Type}.
Notation event := (event Tok E Inst R).

(** A syntax tree as reported to node hooks.  A node has its index, the initial token, the
    hook instance and its result for each of the hook layers. *)
Inductive tree :=
| Leaf (t : Tok)
| Node (node : Z) (t0 : option Tok) (hooks : list (option Inst)) (results : list (option R)) (kids : list tree).

Fixpoint leaves (T : tree) : list Tok :=
  match T with
  | Leaf t => [t]
  | Node _ _ _ _ kids => (fix go l := match l with [] => [] | k :: r => leaves k ++ go r end) kids
  end.
Definition leavesL (l : list tree) : list Tok := concat (map leaves l).

(** Calls of one method for all instances, in the order of layers. *)
Fixpoint calls (layer : nat) (f : nat -> Inst -> event) (hooks : list (option Inst)) : list event :=
  match hooks with
  | [] => []
  | None :: r => calls (S layer) f r
  | Some i :: r => f layer i :: calls (S layer) f r
  end.
Fixpoint callsR (layer : nat) (f : nat -> Inst -> option R -> event) (hooks : list (option Inst)) (results : list (option R)) : list event :=
  match hooks, results with
  | Some i :: r, x :: xs => f layer i x :: callsR (S layer) f r xs
  | None :: r, _ :: xs => callsR (S layer) f r xs
  | _, _ => []
  end.
(** [hooked]: is there a node hook for this node in each of the layers *)
Fixpoint creations (layer : nat) (hooked : list bool) (node : Z) (t0 : option Tok) (hooks : list (option Inst)) : list event :=
  match hooked, hooks with
  | true :: hs, i :: is => EvCreate layer node t0 i :: creations (S layer) hs node t0 is
  | false :: hs, _ :: is => creations (S layer) hs node t0 is
  | _, _ => []
  end.

Variable hooked : Z -> list bool.

(** What hooks see of a tree whose parent has the instances [up]. *)
Fixpoint trace (up : list (option Inst)) (T : tree) : list event :=
  match T with
  | Leaf t => calls 0 (fun l i => EvToken l i t) up
  | Node node t0 hooks results kids =>
      calls 0 (fun l i => EvNewNode l i node t0) up
      ++ creations 0 (hooked node) node t0 hooks
      ++ (fix go l := match l with [] => [] | k :: r => trace hooks k ++ go r end) kids
      ++ callsR 0 (fun l i x => EvEnd l i x) hooks results
      ++ callsR 0 (fun l i x => EvNode l i node x) up results
  end.
Definition traceL (up : list (option Inst)) (l : list tree) : list event := concat (map (trace up) l).

(** One instance (or none) and one result per layer; no instance and no result without a hook. *)
Definition instOk (node : Z) (hooks : list (option Inst)) : Prop :=
  Forall2 (fun (b : bool) i => b = false -> i = None) (hooked node) hooks.
Fixpoint treeOk (T : tree) : Prop :=
  match T with
  | Leaf _ => True
  | Node node t0 hooks results kids =>
      instOk node hooks /\ length results = length hooks /\
      (fix go l := match l with [] => True | k :: r => treeOk k /\ go r end) kids
  end.

(** Classification of events *)
Definition isNodeEvent (ev : event) : bool :=
  match ev with
  | EvCreate _ _ _ _ | EvNewNode _ _ _ _ | EvToken _ _ _ | EvNode _ _ _ _ | EvEnd _ _ _ => true
  | _ => false
  end.
(** logs in the order of time *)
Definition nodeEvents (l : list event) : list event := filter isNodeEvent l.
Definition nexts (l : list event) : list (option Tok) :=
  flat_map (fun ev => match ev with EvNext t => [t] | _ => [] end) l.
Definition rests (l : list event) : list Tok :=
  flat_map (fun ev => match ev with EvRest t => [t] | _ => [] end) l.
Definition passed (layer : nat) (l : list event) : list (option Tok) :=
  flat_map (fun ev => match ev with EvPass k t => if (k =? layer)%nat then [t] else [] | _ => [] end) l.
Definition decisions (layer : nat) (l : list event) : list (Tok * (bool * list Tok)) :=
  flat_map (fun ev => match ev with EvDecide k t emit extra => if (k =? layer)%nat then [(t, (emit, extra))] else [] | _ => [] end) l.
Definition somes {A} (l : list (option A)) : list A :=
  flat_map (fun x => match x with Some a => [a] | None => [] end) l.
Definition failed (ev : event) : bool :=
  match ev with EvNodeFail _ | EvFail _ | EvWrong _ => true | _ => false end.
End Trees.
Arguments tree : clear implicits.

(** Is there a hook for the node in each layer: the one for its name or the one for any
    node. *)
Definition hookedIn {H : Type} (tables : list (list (option H))) (node : Z) : list bool :=
  map (fun table => match zget table (node + 1), zget table 0 with
                    | Some (Some _), _ => true
                    | Some None, Some (Some _) => true
                    | _, _ => false
                    end) tables.

(** ** Derivations *)
Section Derivations.
Context {Tok Inst R : Type} (ttype : Tok -> Z) (ttext : Tok -> list Z) (toUpper : list Z -> list Z).
Variable g : grammar.
Notation tree := (tree Tok Inst R).

(** Tables of a grammar as made by the compiler of grammar descriptions *)
Definition tablesOk : Prop :=
  (forall r, In r (gRules g) -> FinalState <= rState r) /\
  forall i st, zget (gStates g) i = Some st -> exists rules multi,
    stateOk g st rules multi /\
    (forall m rs r, In m multi -> zslice (gRules g) (mLow m) (mHigh m) = Some rs -> In r rs -> rToken r = mToken m).

(** Rule [r] leads from the state [i]. *)
Definition ruleOf (i : Z) (r : rule) : Prop :=
  exists st rules multi rs,
    zget (gStates g) i = Some st /\
    zslice (gRules g) (sLow st) (sHigh st) = Some rules /\
    zslice (gMultiRules g) (sLowMulti st) (sHighMulti st) = Some multi /\
    hasRules g rules multi (rToken r) rs /\ In r rs.

(** The token may be taken by a rule for [key]: its text, its type. *)
Definition tokenMatches (t : Tok) (key : Z) : Prop :=
  exists keys, keysOf ttype ttext toUpper g (Some t) keys /\ In key keys.

(** [run i kids j]: the state machine goes from the state [i] to [j] over [kids]. *)
Inductive run : Z -> list tree -> Z -> Prop :=
| R_start i : run i [] i
| R_side i ks j t : run i ks j -> isSide ttype g (Some t) -> run i (ks ++ [Leaf t]) j
| R_token i ks j t r : run i ks j -> ruleOf j r -> rNode r = SameNode -> rToken r <> AnyToken ->
    tokenMatches t (rToken r) -> run i (ks ++ [Leaf t]) (rState r)
| R_skip i ks j r : run i ks j -> ruleOf j r -> rNode r = SameNode -> rToken r = AnyToken ->
    run i ks (rState r)
| R_node i ks j r T : run i ks j -> ruleOf j r -> rNode r <> SameNode ->
    derived (rNode r) T -> run i (ks ++ [T]) (rState r)
(** [T] is a node of the given kind: a full run of its state machine. *)
with derived : Z -> tree -> Prop :=
| D_node node nt t0 hooks results kids : zget (gNodes g) node = Some nt ->
    run (gnFirst nt) kids FinalState -> derived node (Node node t0 hooks results kids).
End Derivations.
