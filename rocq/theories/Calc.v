(** Model of the calculator, /repo/examples/calc/internal/lib.go.
    - Float64 is a parameter [F] with its operations; strconv.ParseFloat and math.Pow are parameters.
    - The parser drives hook instances of nodes as in parser.go: tokens and results of nodes inside are passed in their order ([runNode]); the tree of nodes comes from the grammar (grammar.llx).  Only types, names and texts of tokens are used by hooks.
    - [runContext]s are lists of frames, the current one first, the root one last.
    - Assignments and definitions of functions occur only at the root of the tree, so they are apart from other expressions ([stmt]).
    - Compute runs on fuel; [Endless] is the lack of it (deep recursion).  [Crash] is a panic. *)
From Coq Require Import String Ascii ZArith List Bool.
Import ListNotations.
Local Open Scope string_scope.
Local Open Scope list_scope.

(** lib.go:14-40 *)
Inductive calcError := UnknownVar (n : string) | UnknownFunc (n : string) | WrongArgNumber (n : string) (expected got : nat) | ArgDefined (n : string) | BadNumber (text : string).
Inductive built (A : Type) := Ok (a : A) | Fail (e : calcError) | Crash.
Arguments Ok {A}. Arguments Fail {A}. Arguments Crash {A}.
Definition bindB {A B} (x : built A) (k : A -> built B) : built B := match x with Ok a => k a | Fail e => Fail e | Crash => Crash end.
Definition orCrashB {A} (x : option A) : built A := match x with Some a => Ok a | None => Crash end.
(** nodes and tokens given by the parser *)
Inductive ptree := PTok (type text : string) | PNode (node : string) (inside : list ptree).

Section Calc.
Context {F : Type}.
Variables zero one : F.
Variables add sub mul div pow : F -> F -> F.
Variable parseFloat : string -> option F.

(** lib.go:106-112, 122-131, 201-203, 256-262, 374-377: number, chain, power, varName, funcCall *)
Inductive expr :=
| Number (value : F)
| Chain (value : F) (opVals : list (ascii * expr))
| Power (base exp : expr)
| VarName (name : string)
| FuncCall (name : string) (args : list expr).
(** lib.go:42-50 *)
Record function := mkFunc { fName : string; fArgs : list string; fBody : expr }.
(** lib.go:65-73 *)
Record frame := mkFrame { vars : list (string * F); functions : list (string * function) }.
Definition context := list frame.
(** lib.go:272-275, 315-320: assignment and funcDef are for the root only *)
Inductive stmt := SExpr (e : expr) | SAssign (name : string) (value : expr) | SDef (name : string) (argNames : list string) (body : expr).

(** maps *)
Fixpoint get {A} (n : string) (m : list (string * A)) : option A :=
  match m with [] => None | (k, x) :: r => if String.eqb n k then Some x else get n r end.
Definition set {A} (n : string) (x : A) (m : list (string * A)) : list (string * A) := (n, x) :: m.

(** ** Compute *)
(** lib.go:75-99 *)
Fixpoint variable (n : string) (c : context) : F + calcError :=
  match c with
  | [] => inr (UnknownVar n)
  | f :: r => match get n (vars f) with Some x => inl x | None => variable n r end
  end.
Fixpoint functionOf (n : string) (c : context) : function + calcError :=
  match c with
  | [] => inr (UnknownFunc n)
  | f :: r => match get n (functions f) with Some x => inl x | None => functionOf n r end
  end.
(** lib.go:159-171 *)
Definition update (res val : F) (op : ascii) : F :=
  if Ascii.eqb op "+" then add res val
  else if Ascii.eqb op "-" then sub res val
  else if Ascii.eqb op "*" then mul res val
  else if Ascii.eqb op "/" then div res val
  else res.
Inductive outcome := Val (v : F) | Err (e : calcError) | Endless.
(** lib.go:52-63, 118-120, 145-157, 213-223, 268-270, 387-405 *)
Fixpoint compute (fuel : nat) (e : expr) (c : context) : outcome :=
  match fuel with
  | O => Endless
  | S fu =>
      match e with
      | Number v => Val v
      | Chain v ovs =>
          (fix loop (res : F) (ovs : list (ascii * expr)) : outcome :=
             match ovs with
             | [] => Val res
             | (op, e) :: r => match compute fu e c with Val x => loop (update res x op) r | o => o end
             end) v ovs
      | Power b x => match compute fu b c with Val v => match compute fu x c with Val w => Val (pow v w) | o => o end | o => o end
      | VarName n => match variable n c with inl x => Val x | inr e => Err e end
      | FuncCall n args =>
          match functionOf n c with
          | inr e => Err e
          | inl f =>
              (fix loop (args : list expr) (vs : list F) : outcome :=
                 match args with
                 | [] =>
                     if Nat.eqb (length vs) (length (fArgs f)) then
                       compute fu (fBody f) (mkFrame (fold_left (fun m p => set (fst p) (snd p) m) (combine (fArgs f) vs) []) [] :: c)
                     else Err (WrongArgNumber (fName f) (length (fArgs f)) (length vs))
                 | a :: r => match compute fu a c with Val x => loop r (vs ++ [x]) | o => o end
                 end) args []
          end
      end
  end.
(** lib.go:114-116, 141-143, 209-211, 264-266, 383-385 (IsNumber) and Compute(nil) of what is a number *)
Fixpoint numberOf (e : expr) : option F :=
  match e with
  | Number v => Some v
  | Chain v [] => Some v
  | Power b x => match numberOf b, numberOf x with Some v, Some w => Some (pow v w) | _, _ => None end
  | _ => None
  end.

(** ** Hooks *)
(** instances of hooks; the index of names of funcDef is its list of arguments *)
Inductive inst :=
| IChain (lastOp : ascii) (value : F) (opVals : list (ascii * expr))
| IPower (base : option expr) (exp : expr)
| IAssign (name : string) (value : option expr)
| IFunc (name : string) (argNames : list string) (body : option expr)
| ICall (name : string) (args : list expr)
| IRoot (body : option stmt)
| IValue (body : option expr).
(** lib.go:490-514, 133-139, 205-207, 322-324 *)
Definition newInst (node : string) : option inst :=
  if node =? "calcGrammar" then Some (IRoot None)
  else if node =? "func" then Some (IFunc "" [] None)
  else if node =? "assign" then Some (IAssign "" None)
  else if node =? "expr" then Some (IChain "+" zero [])
  else if node =? "pro" then Some (IChain "*" one [])
  else if node =? "pow" then Some (IPower None (Number one))
  else if node =? "value" then Some (IValue None)
  else if node =? "call" then Some (ICall "" [])
  else None.
(** a result that must be an expression of the inner kind *)
Definition inner (s : stmt) : option expr := match s with SExpr e => Some e | _ => None end.
(** lib.go:177-186, 229-237, 297-302, 339-344, 411-416, 441-444, 466-469 *)
Definition handleNode (i : inst) (node : string) (r : stmt) : built inst :=
  match i with
  | IChain op v ovs => bindB (orCrashB (inner r)) (fun e => Ok (match numberOf e with Some x => IChain op (update v x op) ovs | None => IChain op v (ovs ++ [(op, e)]) end))
  | IPower b x => bindB (orCrashB (inner r)) (fun e => Ok (match b with None => IPower (Some e) x | Some _ => IPower b e end))
  | IAssign n v => if node =? "expr" then bindB (orCrashB (inner r)) (fun e => Ok (IAssign n (Some e))) else Ok i
  | IFunc n a b => if node =? "expr" then bindB (orCrashB (inner r)) (fun e => Ok (IFunc n a (Some e))) else Ok i
  | ICall n a => if node =? "expr" then bindB (orCrashB (inner r)) (fun e => Ok (ICall n (a ++ [e]))) else Ok i
  | IRoot _ => Ok (IRoot (Some r))
  | IValue _ => bindB (orCrashB (inner r)) (fun e => Ok (IValue (Some e)))
  end.
(** lib.go:188-191, 239-241, 304-309, 346-368, 418-423, 446-448, 471-484 *)
Definition handleToken (i : inst) (ty text : string) : built inst :=
  match i with
  | IChain _ v ovs => match text with String a _ => Ok (IChain a v ovs) | EmptyString => Crash end
  | IPower _ _ => Ok i
  | IAssign n v => Ok (if ty =? "name" then IAssign text v else i)
  | IFunc n a b =>
      if negb (ty =? "name") then Ok i
      else if text =? "func" then Ok i
      else if n =? "" then Ok (IFunc text a b)
      else if existsb (String.eqb text) a then Fail (ArgDefined text)
      else Ok (IFunc n (a ++ [text]) b)
  | ICall n a => Ok (if ty =? "name" then ICall text a else i)
  | IRoot _ => Ok i
  | IValue b =>
      if ty =? "name" then Ok (IValue (Some (VarName text)))
      else if ty =? "number" then match parseFloat text with Some x => Ok (IValue (Some (Number x))) | None => Fail (BadNumber text) end
      else Ok i
  end.
(** lib.go:193-199, 243-254, 311-313, 370-372, 425-427, 450-452, 486-488.  An instance without its parts gives nil, and the caller of its method panics. *)
Definition endNode (i : inst) : built stmt :=
  match i with
  | IChain _ v ovs => Ok (SExpr (match ovs with [] => Number v | _ => Chain v ovs end))
  | IPower (Some b) x => Ok (SExpr (match numberOf (Power b x) with Some v => Number v | None => Power b x end))
  | IAssign n (Some e) => Ok (SAssign n e)
  | IFunc n a (Some e) => Ok (SDef n a e)
  | ICall n a => Ok (SExpr (FuncCall n a))
  | IRoot (Some s) => Ok s
  | IValue (Some e) => Ok (SExpr e)
  | _ => Crash
  end.
(** parser.go:485-522, 651-701: a node: its hook instance gets everything inside *)
Fixpoint runNode (t : ptree) {struct t} : built stmt :=
  match t with
  | PTok _ _ => Crash
  | PNode n inside =>
      bindB (orCrashB (newInst n)) (fun i =>
      bindB ((fix loop (i : inst) (l : list ptree) : built inst :=
                match l with
                | [] => Ok i
                | PTok ty tx :: r => bindB (handleToken i ty tx) (fun i => loop i r)
                | (PNode m _ as t) :: r => bindB (runNode t) (fun s => bindB (handleNode i m s) (fun i => loop i r))
                end) i inside) endNode)
  end.

(** lib.go:285-291, 330-333, 530-545: the result of an input and the root context after it *)
Definition calcLine (fuel : nat) (t : ptree) (root : frame) : built outcome * frame :=
  match runNode t with
  | Fail e => (Ok (Err e), root)
  | Crash => (Crash, root)
  | Ok (SExpr e) => (Ok (compute fuel e [root]), root)
  | Ok (SAssign n e) =>
      match compute fuel e [root] with
      | Val v => (Ok (Val v), mkFrame (set n v (vars root)) (functions root))
      | o => (Ok o, root)
      end
  | Ok (SDef n a b) => (Ok (Val zero), mkFrame (vars root) (set n (mkFunc n a b) (functions root)))
  end.
(** inputs one after another *)
Fixpoint session (fuel : nat) (ts : list ptree) (root : frame) : list (built outcome) :=
  match ts with
  | [] => []
  | t :: r => let (o, root) := calcLine fuel t root in o :: session fuel r root
  end.
Definition rootContext : frame := mkFrame [] [].
End Calc.
Arguments expr F : clear implicits. Arguments function F : clear implicits. Arguments frame F : clear implicits. Arguments context F : clear implicits.
Arguments stmt F : clear implicits. Arguments outcome F : clear implicits. Arguments inst F : clear implicits.
