(** Model of standard hook layers convert (/repo/parser/layers/convert/convert.go) and restrict (/repo/parser/layers/restrict/restrict.go).
    - Errors (/repo/parser/layers/common/errors.go) are named by their codes, with the command and the argument they mention; texts of messages are not modelled.
    - Go maps are lists of pairs; only reading of single keys is used.
    - The stack of nodes given by NodeContext.NodeStack (hooks.go:164-175, names, the current node first) is an argument of the hook of restrict. *)
From Coq Require Import String ZArith List Bool.
From Verif Require Import Base Grammar LangTypes Layers.
From Verif Require Lexer LangText.
Import ListNotations.
Local Open Scope string_scope.
Open Scope Z_scope.

(** lexer/token.go:12-17 *)
Record ltok (Pos : Type) := mkLTok { lType : Z; lName : name; lText : name; lPos : Pos }.
Arguments mkLTok {Pos} _ _ _ _. Arguments lType {Pos}. Arguments lName {Pos}. Arguments lText {Pos}. Arguments lPos {Pos}.
(** common/errors.go:12-29 *)
Inductive stdError :=
| UnknownCommand (cmd : name)
| MissingCommand (cmd : name)
| NumberOfArguments (cmd : name)
| InvalidArgument (cmd arg : name)
| CommandAlreadyUsed (cmd : name)
| UnknownType (cmd arg : name).

(** ** convert *)
(** convert.go:51-54 *)
Definition convertCommand : name := Eval vm_compute in LangText.bytes "convert".
Definition inputTypeCommand : name := Eval vm_compute in LangText.bytes "input-type".
Definition outputTypeCommand : name := Eval vm_compute in LangText.bytes "output-type".
Definition savePositionCommand : name := Eval vm_compute in LangText.bytes "save-position".
(** convert.go:75-80: local variables *)
Record cvState := mkCv { cvInput : name; cvOutput : name; cvReplaces : list (name * name); cvSave : bool; cvGot : bool }.
(** convert.go:117-125 *)
Fixpoint addReplaces (args : list name) (m : list (name * name)) : list (name * name) + stdError :=
  match args with
  | from :: to :: r => match nget from m with Some _ => inr (InvalidArgument convertCommand from) | None => addReplaces r (nput from to m) end
  | _ => inl m
  end.
Section Convert.
Context {Pos : Type}.
(** parser.go:201-204: Parser.TokenType; the zero value of source.Pos *)
Variable tokenType : name -> option Z.
Variable noPos : Pos.
(** convert.go:84-132: one command *)
Definition cvCommand (c : gcommand) (s : cvState) : cvState + stdError :=
  let cmd := gcName c in
  if nameEqb cmd inputTypeCommand || nameEqb cmd outputTypeCommand then
    match gcArgs c with
    | [arg] =>
        match tokenType arg with
        | None => inr (UnknownType cmd arg)
        | Some _ =>
            if nameEqb cmd inputTypeCommand then
              if negb (nameEqb (cvInput s) []) then inr (CommandAlreadyUsed cmd) else inl (mkCv arg (cvOutput s) (cvReplaces s) (cvSave s) (cvGot s))
            else
              if negb (nameEqb (cvOutput s) []) then inr (CommandAlreadyUsed cmd) else inl (mkCv (cvInput s) arg (cvReplaces s) (cvSave s) (cvGot s))
        end
    | _ => inr (NumberOfArguments cmd)
    end
  else if nameEqb cmd convertCommand then
    let l := zlen (gcArgs c) in
    if (l =? 0) || negb (Z.land l 1 =? 0) then inr (NumberOfArguments cmd)
    else match addReplaces (gcArgs c) (cvReplaces s) with
         | inr e => inr e
         | inl m => inl (mkCv (cvInput s) (cvOutput s) m (cvSave s) true)
         end
  else if nameEqb cmd savePositionCommand then inl (mkCv (cvInput s) (cvOutput s) (cvReplaces s) true (cvGot s))
  else inr (UnknownCommand cmd).
(** convert.go:83-133 *)
Fixpoint cvCommands (cs : list gcommand) (s : cvState) : cvState + stdError :=
  match cs with
  | [] => inl s
  | c :: r => match cvCommand c s with inl s => cvCommands r s | inr e => inr e end
  end.
(** convert.go:150-168: the hook: the emit flag and extra tokens (there are no errors) *)
Definition cvHook (replaces : list (name * name)) (save : bool) (out : option (Z * name)) (t : ltok Pos) : bool * list (ltok Pos) :=
  match nget (lText t) replaces with
  | None => (true, [])
  | Some text =>
      let pos := if save then lPos t else noPos in
      let new := match out with None => mkLTok (lType t) (lName t) text pos | Some (ty, tn) => mkLTok ty tn text pos end in
      (false, [new])
  end.
(** convert.go:74-170: the layer is its only hook with the name of the type *)
Definition cvSetup (cs : list gcommand) : (name * (ltok Pos -> bool * list (ltok Pos))) + stdError :=
  match cvCommands cs (mkCv anyName [] [] false false) with
  | inr e => inr e
  | inl s =>
      if negb (cvGot s) then inr (MissingCommand convertCommand)
      else
        let outName := if nameEqb (cvOutput s) [] && negb (nameEqb (cvInput s) []) then cvInput s else cvOutput s in
        let out := if nameEqb outName [] then None else Some (match tokenType outName with Some i => i | None => 0 end, outName) in
        inl (cvInput s, cvHook (cvReplaces s) (cvSave s) out)
  end.
End Convert.

(** ** restrict *)
(** restrict.go:53-55 *)
Definition nodeCommand : name := Eval vm_compute in LangText.bytes "node".
Definition allowInCommand : name := Eval vm_compute in LangText.bytes "allow-in".
Definition forbidInCommand : name := Eval vm_compute in LangText.bytes "forbid-in".
(** restrict.go:78-100: local variables; [rsNodes]: keys of result.Nodes *)
Record rsState := mkRs { rsNodes : list name; rsSpecial : list (name * bool); rsRestricted : bool }.
(** restrict.go:110-117 *)
Fixpoint addRestricted (args : list name) (l : list name) : list name + stdError :=
  match args with
  | [] => inl l
  | n :: r => if existsb (nameEqb n) l then inr (InvalidArgument nodeCommand n) else addRestricted r (n :: l)
  end.
(** restrict.go:128-135 *)
Fixpoint addSpecial (cmd : name) (allow : bool) (args : list name) (m : list (name * bool)) : list (name * bool) + stdError :=
  match args with
  | [] => inl m
  | n :: r => match nget n m with Some _ => inr (InvalidArgument cmd n) | None => addSpecial cmd allow r (nput n allow m) end
  end.
(** restrict.go:103-139: one command *)
Definition rsCommand (c : gcommand) (s : rsState) : rsState + stdError :=
  let cmd := gcName c in
  if nameEqb cmd nodeCommand then
    match gcArgs c with
    | [] => inr (NumberOfArguments cmd)
    | args => match addRestricted args (rsNodes s) with inr e => inr e | inl l => inl (mkRs l (rsSpecial s) (rsRestricted s)) end
    end
  else if nameEqb cmd allowInCommand || nameEqb cmd forbidInCommand then
    match gcArgs c with
    | [] => inr (NumberOfArguments cmd)
    | args =>
        let allow := nameEqb cmd allowInCommand in
        match addSpecial cmd allow args (rsSpecial s) with
        | inr e => inr e
        | inl m => inl (mkRs (rsNodes s) m (rsRestricted s || negb allow))
        end
    end
  else inr (UnknownCommand cmd).
Fixpoint rsCommands (cs : list gcommand) (s : rsState) : rsState + stdError :=
  match cs with
  | [] => inl s
  | c :: r => match rsCommand c s with inl s => rsCommands r s | inr e => inr e end
  end.
(** restrict.go:83-98: the hook; [Some] is the ancestor mentioned by the error *)
Fixpoint rsHook (special : list (name * bool)) (stack : list name) : option name :=
  match stack with
  | [] => None
  | a :: r => match nget a special with Some true => None | Some false => Some a | None => rsHook special r end
  end.
(** restrict.go:77-151: names of nodes with the hook; the hook *)
Definition rsSetup (cs : list gcommand) : (list name * (list name -> option name)) + stdError :=
  match rsCommands cs (mkRs [] [] false) with
  | inr e => inr e
  | inl s =>
      match rsNodes s with
      | [] => inr (MissingCommand nodeCommand)
      | _ => if negb (rsRestricted s) then inr (MissingCommand forbidInCommand) else inl (rsNodes s, rsHook (rsSpecial s))
      end
  end.
