(** Model of the tree building hook, /repo/tree/tree.go:836-871, in a parser with any other
    hooks (of hook layers, of tokens).
    The elements of trees are a part of the world next to whatever else the other hooks work on; those do not touch the elements. *)
From Coq Require Import ZArith List Bool Arith.
From Verif Require Import Base Grammar Parser.
From Verif Require Tree.
Import ListNotations.
Open Scope Z_scope.

Section TreeHook.
Context {Tok Src W E Inst R : Type}.
(** tree.go:851: the error made for a node whose result is not an element *)
Variable notElement : Z -> E.

(** Elements: links (Tree.v), names of nodes (here indexes of nodes in the grammar; names of tokens are those of their types), tokens *)
Record store := mkStore { sHeap : Tree.heap; sName : Tree.id -> Z; sTok : Tree.id -> option Tok }.
(** tree.go:738-740 *)
Definition newNodeElement (node : Z) (t : option Tok) (st : store) : store * Tree.id :=
  let (h, x) := Tree.newElement (sHeap st) true in (mkStore h (Tree.upd (sName st) x node) (Tree.upd (sTok st) x t), x).
(** tree.go:689-691 *)
Definition newTokenElement (t : Tok) (st : store) : store * Tree.id :=
  let (h, x) := Tree.newElement (sHeap st) false in (mkStore h (sName st) (Tree.upd (sTok st) x (Some t)), x).
Definition addChild (n e : Tree.id) (st : store) : store := mkStore (Tree.addChild (sHeap st) n (Some e) None) (sName st) (sTok st).

(** Instances and results of the tree hook (HookInstance is a pointer to an element), and of other hooks *)
Inductive inst := TreeInst (n : Tree.id) | OtherInst (i : Inst).
Inductive result := Elem (x : Tree.id) | OtherRes (r : R).
Definition world2 := Parser.world Src (W * store).
(** a call of something that does not know of trees *)
Definition lift {A} (f : Parser.world Src W -> Parser.world Src W * A) (w : world2) : world2 * A :=
  let '(src, (w, st)) := w in let '((src, w), a) := f (src, w) in ((src, (w, st)), a).
Definition forget (w : world2) : Parser.world Src W := (fst w, fst (snd w)).
Definition forgetRes (r : option result) : option R := match r with Some (OtherRes r) => Some r | _ => None end.

(** tree.go:869-871 *)
Definition treeHook : nodeHook (Tok := Tok) (Src := Src) (W := W * store) (E := E) (Inst := inst) := fun node t w =>
  let '(src, (w, st)) := w in let (st, x) := newNodeElement node t st in ((src, (w, st)), (Some (TreeInst x), None)).
(** tree.go:844-866 *)
Definition treeMethods (M : methods Tok Src W E Inst R) : methods Tok Src (W * store) E inst result := mkMethods
  (fun i node t w => match i with
    | TreeInst _ => (w, None)
    | OtherInst i => lift (mNewNode M i node t) w
    end)
  (fun i node r w => match i with
    | TreeInst n =>
        match r with
        | Some (Elem x) => let '(src, (w, st)) := w in ((src, (w, addChild n x st)), None)
        | _ => (w, Some (notElement node))
        end
    | OtherInst i => lift (mHandleNode M i node (forgetRes r)) w
    end)
  (fun i t w => match i with
    | TreeInst n => let '(src, (w, st)) := w in let (st, x) := newTokenElement t st in ((src, (w, addChild n x st)), None)
    | OtherInst i => lift (mHandleToken M i t) w
    end)
  (fun i w => match i with
    | TreeInst n => (w, (Some (Elem n), None))
    | OtherInst i => lift (fun w => let '(w, (r, e)) := mEndNode M i w in (w, (option_map OtherRes r, e))) w
    end).
(** other hooks *)
Fixpoint liftProg (p : prog Tok Src W E) : prog Tok Src (W * store) E :=
  match p with
  | PRet emit extra e => PRet emit extra e
  | PPeek k => PPeek (fun r => liftProg (k r))
  | PWorld f k => PWorld (fun w => fst (lift (fun w => (f w, tt)) w)) (fun w => liftProg (k (forget w)))
  end.
Definition liftTokenHook (h : tokenHook (Tok := Tok) (Src := Src) (W := W) (E := E)) : tokenHook (Tok := Tok) (Src := Src) (W := W * store) (E := E) := fun t => liftProg (h t).
Definition liftNodeHook (h : nodeHook (Tok := Tok) (Src := Src) (W := W) (E := E) (Inst := Inst)) : nodeHook (Tok := Tok) (Src := Src) (W := W * store) (E := E) (Inst := inst) :=
  fun node t w => lift (fun w => let '(w, (i, e)) := h node t w in (w, (option_map OtherInst i, e))) w.

(** A parse with options "Hooks.Nodes: {AnyNode: tree.NodeHook}" (parser.go:240-285, 325-347): the first table of node hooks is that of the
    user; the rest is as in [c]. *)
Definition withTree (c : config Tok Src W E Inst R) : config Tok Src (W * store) E inst result := mkConfig
  (cType c) (cText c) (cUpper c) (treeMethods (cMethods c)) (cGrammar c) (cLexers c) (cLiterals c)
  (map (map (option_map liftTokenHook)) (cTokenHooks c))
  ((Some treeHook :: repeat None (length (gNodes (cGrammar c)))) :: map (map (option_map liftNodeHook)) (cNodeHooks c))
  (lift (cCtx c)) (cPassSides c) true (cFullSource c) (cUnread c).
End TreeHook.
Arguments store : clear implicits. Arguments inst : clear implicits. Arguments result : clear implicits.
