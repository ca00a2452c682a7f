(** What a user of the calculator writes and what it means: sums, products, powers and values as in /repo/examples/calc/internal/grammar.llx, their values by the usual rules (operators of one level are applied from left to right, parts are computed from left to right up to the first error), arguments of functions are known only inside the function, everything else is global.
    From the model only [get], [set] (maps as lists of pairs), errors and trees of nodes are used; the trees at the end are those of grammar.llx. *)
From Coq Require Import String Ascii ZArith List Bool.
From Verif Require Import Calc.
Import ListNotations.
Local Open Scope string_scope.
Local Open Scope list_scope.

(** ** Inputs *)
Inductive sumOp := Plus | Minus.
Inductive proOp := Times | Over.
Inductive sum := SOne (minus : bool) (p : pro) | SMore (s : sum) (o : sumOp) (p : pro)
with pro := POne (w : power) | PMore (p : pro) (o : proOp) (w : power)
with power := WOne (v : value) | WPow (v : value) (w : power)
with value := VNum (text : string) | VName (n : string) | VCall (f : string) (a : args) | VParen (s : sum)
with args := ANil | ACons (s : sum) (a : args).
Inductive line := LExpr (s : sum) | LAssign (x : string) (s : sum) | LDef (f : string) (params : list string) (s : sum).

(** ** Meaning *)
Section Meaning.
Context {F : Type}.
Variables zero one : F.
Variables add sub mul div pow : F -> F -> F.
Variable parseFloat : string -> option F.
(** globals *)
Record state := mkState { sVars : list (string * F); sFuns : list (string * (list string * sum)) }.
Definition out := (F + calcError)%type.
Definition addOp (o : sumOp) : F -> F -> F := match o with Plus => add | Minus => sub end.
Definition mulOp (o : proOp) : F -> F -> F := match o with Times => mul | Over => div end.
Definition on2 (f : F -> F -> F) (x : F) (y : out) : out := match y with inl y => inl (f x y) | inr e => inr e end.

(** values in state [st]; [loc]: arguments of the current function.  A sum starts from zero, a product from one: [- p] is [0 - p], [p] is [0 + p], [w] is [1 * w] (for float64 this makes a difference only for the sign of zero). *)
Inductive sumOut (st : state) : list (string * F) -> sum -> out -> Prop :=
| so_one loc (minus : bool) p x : proOut st loc p x -> sumOut st loc (SOne minus p) (on2 (addOp (if minus then Minus else Plus)) zero x)
| so_more loc s op p x y : sumOut st loc s (inl x) -> proOut st loc p y -> sumOut st loc (SMore s op p) (on2 (addOp op) x y)
| so_stop loc s op p e : sumOut st loc s (inr e) -> sumOut st loc (SMore s op p) (inr e)
with proOut (st : state) : list (string * F) -> pro -> out -> Prop :=
| po_one loc w x : powerOut st loc w x -> proOut st loc (POne w) (on2 mul one x)
| po_more loc p op w x y : proOut st loc p (inl x) -> powerOut st loc w y -> proOut st loc (PMore p op w) (on2 (mulOp op) x y)
| po_stop loc p op w e : proOut st loc p (inr e) -> proOut st loc (PMore p op w) (inr e)
with powerOut (st : state) : list (string * F) -> power -> out -> Prop :=
| wo_one loc v x : valueOut st loc v x -> powerOut st loc (WOne v) x
| wo_pow loc v w x y : valueOut st loc v (inl x) -> powerOut st loc w y -> powerOut st loc (WPow v w) (on2 pow x y)
| wo_stop loc v w e : valueOut st loc v (inr e) -> powerOut st loc (WPow v w) (inr e)
with valueOut (st : state) : list (string * F) -> value -> out -> Prop :=
| vo_num loc text x : parseFloat text = Some x -> valueOut st loc (VNum text) (inl x)
| vo_local loc n x : get n loc = Some x -> valueOut st loc (VName n) (inl x)
| vo_global loc n x : get n loc = None -> get n (sVars st) = Some x -> valueOut st loc (VName n) (inl x)
| vo_unknown loc n : get n loc = None -> get n (sVars st) = None -> valueOut st loc (VName n) (inr (UnknownVar n))
| vo_paren loc s x : sumOut st loc s x -> valueOut st loc (VParen s) x
| vo_nofunc loc f a : get f (sFuns st) = None -> valueOut st loc (VCall f a) (inr (UnknownFunc f))
| vo_badarg loc f a d e : get f (sFuns st) = Some d -> argsOut st loc a (inr e) -> valueOut st loc (VCall f a) (inr e)
| vo_number loc f a ps b vs : get f (sFuns st) = Some (ps, b) -> argsOut st loc a (inl vs) -> length vs <> length ps -> valueOut st loc (VCall f a) (inr (WrongArgNumber f (length ps) (length vs)))
| vo_call loc f a ps b vs x : get f (sFuns st) = Some (ps, b) -> argsOut st loc a (inl vs) -> length vs = length ps -> sumOut st (combine ps vs) b x -> valueOut st loc (VCall f a) x
with argsOut (st : state) : list (string * F) -> args -> list F + calcError -> Prop :=
| ao_nil loc : argsOut st loc ANil (inl [])
| ao_cons loc s a x vs : sumOut st loc s (inl x) -> argsOut st loc a (inl vs) -> argsOut st loc (ACons s a) (inl (x :: vs))
| ao_rest loc s a x e : sumOut st loc s (inl x) -> argsOut st loc a (inr e) -> argsOut st loc (ACons s a) (inr e)
| ao_stop loc s a e : sumOut st loc s (inr e) -> argsOut st loc (ACons s a) (inr e).
(** an input: its answer and globals after it *)
Inductive lineOut (st : state) : line -> out -> state -> Prop :=
| lo_expr s x : sumOut st [] s x -> lineOut st (LExpr s) x st
| lo_assign n s v : sumOut st [] s (inl v) -> lineOut st (LAssign n s) (inl v) (mkState (set n v (sVars st)) (sFuns st))
| lo_noassign n s e : sumOut st [] s (inr e) -> lineOut st (LAssign n s) (inr e) st
| lo_def f ps s : NoDup ps -> lineOut st (LDef f ps s) (inl zero) (mkState (sVars st) (set f (ps, s) (sFuns st)))
| lo_nodef f ps qs n s : NoDup ps -> In n ps -> lineOut st (LDef f (ps ++ n :: qs) s) (inr (ArgDefined n)) st.
Inductive sessionOut : state -> list line -> list out -> Prop :=
| se_nil st : sessionOut st [] []
| se_cons st l ls x st' xs : lineOut st l x st' -> sessionOut st' ls xs -> sessionOut st (l :: ls) (x :: xs).
Definition noState : state := mkState [] [].

(** all numbers can be read *)
Fixpoint readS (s : sum) : Prop := match s with SOne _ p => readP p | SMore s _ p => readS s /\ readP p end
with readP (p : pro) : Prop := match p with POne w => readW w | PMore p _ w => readP p /\ readW w end
with readW (w : power) : Prop := match w with WOne v => readV v | WPow v w => readV v /\ readW w end
with readV (v : value) : Prop := match v with VNum t => parseFloat t <> None | VName _ => True | VCall _ a => readA a | VParen s => readS s end
with readA (a : args) : Prop := match a with ANil => True | ACons s a => readS s /\ readA a end.
(** what the calculator must answer *)
Definition answer (x : out) : built (outcome F) := Ok (match x with inl v => Val v | inr e => Err e end).
End Meaning.
Arguments state F : clear implicits. Arguments out F : clear implicits.

(** ** Parts of inputs *)
Definition sumOf (l : line) : sum := match l with LExpr s | LAssign _ s | LDef _ _ s => s end.
(** names of variables *)
Fixpoint namesS (s : sum) : list string := match s with SOne _ p => namesP p | SMore s _ p => namesS s ++ namesP p end
with namesP (p : pro) : list string := match p with POne w => namesW w | PMore p _ w => namesP p ++ namesW w end
with namesW (w : power) : list string := match w with WOne v => namesV v | WPow v w => namesV v ++ namesW w end
with namesV (v : value) : list string := match v with VNum _ => [] | VName n => [n] | VCall _ a => namesA a | VParen s => namesS s end
with namesA (a : args) : list string := match a with ANil => [] | ACons s a => namesS s ++ namesA a end.
(** neither variables nor calls *)
Fixpoint constS (s : sum) : bool := match s with SOne _ p => constP p | SMore s _ p => constS s && constP p end
with constP (p : pro) : bool := match p with POne w => constW w | PMore p _ w => constP p && constW w end
with constW (w : power) : bool := match w with WOne v => constV v | WPow v w => constV v && constW w end
with constV (v : value) : bool := match v with VNum _ => true | VName _ => false | VCall _ _ => false | VParen s => constS s end.
(** terms and factors without variables come before others *)
Fixpoint tidyS (s : sum) : Prop := match s with SOne _ p => tidyP p | SMore s _ p => tidyS s /\ tidyP p /\ (constP p = true -> constS s = true) end
with tidyP (p : pro) : Prop := match p with POne w => tidyW w | PMore p _ w => tidyP p /\ tidyW w /\ (constW w = true -> constP p = true) end
with tidyW (w : power) : Prop := match w with WOne v => tidyV v | WPow v w => tidyV v /\ tidyW w end
with tidyV (v : value) : Prop := match v with VNum _ => True | VName _ => True | VCall _ a => tidyA a | VParen s => tidyS s end
with tidyA (a : args) : Prop := match a with ANil => True | ACons s a => tidyS s /\ tidyA a end.
(** names of functions called *)
Fixpoint callsS (s : sum) : list string := match s with SOne _ p => callsP p | SMore s _ p => callsS s ++ callsP p end
with callsP (p : pro) : list string := match p with POne w => callsW w | PMore p _ w => callsP p ++ callsW w end
with callsW (w : power) : list string := match w with WOne v => callsV v | WPow v w => callsV v ++ callsW w end
with callsV (v : value) : list string := match v with VNum _ => [] | VName _ => [] | VCall f a => f :: callsA a | VParen s => callsS s end
with callsA (a : args) : list string := match a with ANil => [] | ACons s a => callsS s ++ callsA a end.
(** order of terms and of factors does not matter *)
Definition exact {F} (add sub mul div : F -> F -> F) : Prop :=
  (forall f g, In f [add; sub] -> In g [add; sub] -> forall a x y, g (f a x) y = f (g a y) x) /\
  (forall f g, In f [mul; div] -> In g [mul; div] -> forall a x y, g (f a x) y = f (g a y) x).
(** arguments of all functions of a session *)
Definition params (ls : list line) : list string := concat (map (fun l => match l with LDef _ ps _ => ps | _ => [] end) ls).
(** bodies of functions do not use arguments of other functions; names *)
Definition scoped (ls : list line) : Prop := forall f ps s x, In (LDef f ps s) ls -> In x (namesS s) -> In x ps \/ ~ In x (params ls).
Definition named (ls : list line) : Prop := forall f ps s, In (LDef f ps s) ls -> f <> "".
Definition noFunc (ls : list line) : Prop := forall f ps s, In (LDef f ps s) ls -> f <> "func" /\ ~ In "func" ps.
(** functions call functions of lower ranks *)
Definition ranked (ls : list line) : Prop := exists rank : string -> nat, forall f ps s g, In (LDef f ps s) ls -> In g (callsS s) -> rank g < rank f.

(** ** Trees of nodes by grammar.llx *)
Definition sumTok (o : sumOp) : ptree := match o with Plus => PTok "op" "+" | Minus => PTok "minus" "-" end.
Definition proTok (o : proOp) : ptree := match o with Times => PTok "op" "*" | Over => PTok "op" "/" end.
(** [expr = ["-"], pro, {"+" | "-", pro}], [pro = pow, {"*" | "/", pow}], [pow = value, ["^", pow]], [value = $number | $name | call | ("(", expr, ")")], [call = $name, "(", [expr, {",", expr}], ")"] *)
Fixpoint inS (s : sum) : list ptree := match s with SOne m p => (if m then [PTok "op" "-"] else []) ++ [PNode "pro" (inP p)] | SMore s o p => inS s ++ [sumTok o; PNode "pro" (inP p)] end
with inP (p : pro) : list ptree := match p with POne w => [PNode "pow" (inW w)] | PMore p o w => inP p ++ [proTok o; PNode "pow" (inW w)] end
with inW (w : power) : list ptree := match w with WOne v => [PNode "value" (inV v)] | WPow v w => [PNode "value" (inV v); PTok "op" "^"; PNode "pow" (inW w)] end
with inV (v : value) : list ptree :=
  match v with
  | VNum t => [PTok "number" t]
  | VName n => [PTok "name" n]
  | VCall f a => [PNode "call" (PTok "name" f :: PTok "op" "(" :: match a with ANil => [] | ACons s a => PNode "expr" (inS s) :: inA a end ++ [PTok "op" ")"])]
  | VParen s => [PTok "op" "("; PNode "expr" (inS s); PTok "op" ")"]
  end
with inA (a : args) : list ptree := match a with ANil => [] | ACons s a => PTok "op" "," :: PNode "expr" (inS s) :: inA a end.
(** [calcGrammar = expr | assign | func], [func = $name, "(", [$name, {",", $name}], ")", "=", expr], [assign = $name, "=", expr] *)
Definition inParams (ps : list string) : list ptree := match ps with [] => [] | p :: r => PTok "name" p :: concat (map (fun p => [PTok "op" ","; PTok "name" p]) r) end.
Definition lineTree (l : line) : ptree :=
  PNode "calcGrammar" [match l with
    | LExpr s => PNode "expr" (inS s)
    | LAssign x s => PNode "assign" [PTok "name" x; PTok "op" "="; PNode "expr" (inS s)]
    | LDef f ps s => PNode "func" (PTok "name" f :: PTok "op" "(" :: inParams ps ++ [PTok "op" ")"; PTok "op" "="; PNode "expr" (inS s)])
    end].
