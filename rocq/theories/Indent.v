(** Model of hook layer indent (/repo/parser/layers/indent/indent.go).
    - The result of TokenContext.PeekToken is an argument of the hook (the hook calls it at most once).
    - Slices are lists; indentations are copied, so "append" at line 288, that may write into the array of the source, is not modelled as such here: see IndentMem.v.
    - The stack of indentations has its top first (in Go it is the last element).
    - Outer [None] is a panic. *)
From Coq Require Import String ZArith List Bool.
From Verif Require Import Base Grammar LangTypes Layers StdLayers.
From Verif Require Lexer LangText.
Import ListNotations.
Local Open Scope string_scope.
Local Open Scope list_scope.
Open Scope Z_scope.

(** indent.go:64-72 *)
Inductive role := RCommon | RSpace | RSide | REmpty | REoi.
Definition isCommon (r : role) : bool := match r with RCommon => true | _ => false end.
(** indent.go:74-83 *)
Inductive istate := SValid | SInc | SDec | SInvalid | SSide | SIndented.
Definition isIndented (s : istate) : bool := match s with SIndented => true | _ => false end.
Definition isSideState (s : istate) : bool := match s with SSide => true | _ => false end.

Section Indent.
Context {Pos PE : Type}.
Notation tok := (ltok Pos).
(** WrongTokenError for a token (common/errors.go:56-64); an error of PeekToken *)
Inductive indentError := WrongToken (t : tok) | PeekError (e : PE).
(** indent.go:96-105 but for the constant part *)
Record lstate := mkLs { lsStack : list name; lsValid : name; lsCurrent : name; lsSpaces : list tok; lsState : istate }.
(** indent.go:107-111: tokens made by MakeToken for indentType, dedentType; roles *)
Variable indentTok dedentTok : tok.
Variable roles : list role.

(** indent.go:134-149 *)
Definition roleOf (t : tok) : option role :=
  let ty := lType t in
  if ty =? Lexer.EoiTokenType then Some REoi
  else if (ty <? 0) || (zlen (lText t) =? 0) then Some REmpty
  else if ty <? zlen roles then zget roles ty
  else Some RCommon.
Definition setState (s : istate) (ls : lstate) : lstate := mkLs (lsStack ls) (lsValid ls) (lsCurrent ls) (lsSpaces ls) s.
(** indent.go:183-189 *)
Definition pad (ts : list tok) (ls : lstate) : list tok * lstate := (lsSpaces ls ++ ts, mkLs (lsStack ls) (lsValid ls) (lsCurrent ls) [] (lsState ls)).
(** indent.go:151-160 *)
Definition indent (ts : list tok) (ls : lstate) : list tok * lstate :=
  let ls := mkLs (lsValid ls :: lsStack ls) (lsCurrent ls) (lsCurrent ls) (lsSpaces ls) (lsState ls) in
  let (p, ls) := pad ts ls in (indentTok :: p, ls).
(** indent.go:166-178: the loop *)
Fixpoint dedentLoop (l : Z) (st : list name) : list tok * option (list name) :=
  match st with
  | [] => ([], None)
  | x :: r => if zlen x =? l then ([dedentTok], Some r) else let (d, res) := dedentLoop l r in (dedentTok :: d, res)
  end.
(** indent.go:162-181 *)
Definition dedent (ts : list tok) (ls : lstate) : list tok * lstate :=
  let (d, st) := dedentLoop (zlen (lsCurrent ls)) (lsStack ls) in
  let ls := mkLs (match st with Some st => st | None => lsStack ls end) (lsCurrent ls) (lsCurrent ls) (lsSpaces ls) (lsState ls) in
  let (p, ls) := pad ts ls in (d ++ p, ls).
(** indent.go:191-222 *)
Definition handleCommon (t : tok) (ls : lstate) : bool * list tok * option indentError * lstate :=
  match lsState ls with
  | SIndented => (true, [], None, ls)
  | SValid => let (x, ls) := pad [t] ls in (false, x, None, setState SIndented ls)
  | SInc => let (x, ls) := indent [t] ls in (false, x, None, setState SIndented ls)
  | SDec => let (x, ls) := dedent [t] ls in (false, x, None, setState SIndented ls)
  | SInvalid | SSide => let (x, ls) := pad [t] ls in (false, x, Some (WrongToken t), ls)
  end.
(** indent.go:273-280: what is after the last newline *)
Fixpoint stripNl (c : name) : option name :=
  match c with
  | [] => None
  | x :: r => match stripNl r with Some s => Some s | None => if x =? 10 then Some r else None end
  end.
(** bytes.HasPrefix s p *)
Fixpoint hasPrefix (s p : name) : bool :=
  match p, s with
  | [], _ => true
  | x :: p, y :: s => (x =? y) && hasPrefix s p
  | _ :: _, [] => false
  end.
(** indent.go:282-314 *)
Definition adjustIndent (c : name) (ls : lstate) : lstate :=
  let cur := match lsCurrent ls with [] => c | _ => lsCurrent ls ++ c end in
  let s :=
    if zlen (lsValid ls) <? zlen cur then (if hasPrefix cur (lsValid ls) then SInc else SInvalid)
    else if hasPrefix (lsValid ls) cur then
      (if zlen cur =? zlen (lsValid ls) then SValid
       else if existsb (fun x => zlen x =? zlen cur) (lsStack ls) then SDec else SInvalid)
    else SInvalid in
  mkLs (lsStack ls) (lsValid ls) cur (lsSpaces ls) s.
(** indent.go:224-271 *)
Definition handleSpace (t : tok) (peek : option tok * option PE) (ls : lstate) : option (bool * list tok * option indentError * lstate) :=
  let (content, ls) :=
    match stripNl (lText t) with
    | Some c => (c, mkLs (lsStack ls) (lsValid ls) [] (lsSpaces ls) (if zlen (lsValid ls) =? 0 then SValid else SDec))
    | None => (lText t, ls)
    end in
  if isIndented (lsState ls) then Some (true, [], None, ls)
  else
    let ls := if isSideState (lsState ls) then ls else adjustIndent content ls in
    match peek with
    | (_, Some e) => Some (false, [], Some (PeekError e), ls)
    | (None, None) => None
    | (Some next, None) =>
        let ls := mkLs (lsStack ls) (lsValid ls) (lsCurrent ls) (lsSpaces ls ++ [t]) (lsState ls) in
        do r <- roleOf next ;
        if negb (isCommon r) then Some (false, [], None, ls)
        else Some (match lsState ls with
        | SValid => let (x, ls) := pad [] ls in (false, x, None, setState SIndented ls)
        | SInvalid | SSide => let (x, ls) := pad [] ls in (false, x, Some (WrongToken t), ls)
        | SInc => let (x, ls) := indent [] ls in (false, x, None, setState SIndented ls)
        | SDec => let (x, ls) := dedent [] ls in (false, x, None, setState SIndented ls)
        | SIndented => (false, [], None, ls)
        end)
    end.
(** indent.go:316-328 *)
Definition handleSide (t : tok) (peek : option tok * option PE) (ls : lstate) : option (bool * list tok * option indentError * lstate) :=
  if isIndented (lsState ls) then Some (true, [], None, ls)
  else
    let ls := setState SSide ls in
    match peek with
    | (_, Some e) => let (x, ls) := pad [t] ls in Some (false, x, Some (PeekError e), ls)
    | (None, None) => let (x, ls) := pad [t] ls in Some (false, x, None, ls)
    | (Some next, None) =>
        do r <- roleOf next ;
        if negb (isCommon r) then let (x, ls) := pad [t] ls in Some (false, x, None, ls)
        else Some (false, [], Some (WrongToken t), ls)
    end.
(** indent.go:330-346 *)
Definition handleEoi (t : tok) (ls : lstate) : list tok * lstate :=
  let (p, ls') := pad [] ls in (map (fun _ => dedentTok) (lsStack ls) ++ p ++ [t], ls').
(** indent.go:113-132 *)
Definition handle (t : tok) (peek : option tok * option PE) (ls : lstate) : option (bool * list tok * option indentError * lstate) :=
  do r <- roleOf t ;
  match r with
  | REoi => let (x, ls) := handleEoi t ls in Some (false, x, None, ls)
  | RCommon => Some (handleCommon t ls)
  | RSpace => handleSpace t peek ls
  | RSide => handleSide t peek ls
  | REmpty => Some (true, [], None, ls)
  end.
(** indent.go:348-354: the initial state *)
Definition initState : lstate := mkLs [] [] [] [] SValid.

(** parser.go:753-807 and 697-723: what the layer gives out for a token.  EoF tokens have no hook (indent.go:360-366); after a special token that
    is not emitted and has extra tokens the parser adds the token itself (parser.go:799-806). *)
Definition layerStep (t : tok) (peek : option tok * option PE) (ls : lstate) : option (list tok * option indentError * lstate) :=
  if lType t =? Lexer.EofTokenType then Some ([t], None, ls)
  else
    do x <- handle t peek ls ;
    let '(emit, extra, e, ls) := x in
    let special := negb emit && (lType t <? 0) in
    let emit' := if special then match extra with [] => true | _ => false end else emit in
    let extra' := if special then match extra with [] => [] | _ => extra ++ [t] end else extra in
    Some ((if emit' then [t] else []) ++ extra', e, ls).
(** a stream of tokens, each with the result of PeekToken at that moment: all that is given out, and the error that stops the parse *)
Fixpoint run (s : list (tok * (option tok * option PE))) (ls : lstate) : option (list tok * option indentError * lstate) :=
  match s with
  | [] => Some ([], None, ls)
  | (t, p) :: r =>
      do x <- layerStep t p ls ;
      match x with
      | (o, Some e, ls) => Some ([], Some e, ls)
      | (o, None, ls) =>
          do y <- run r ls ;
          let '(o', e, ls) := y in Some (o ++ o', e, ls)
      end
  end.
End Indent.
Arguments indentError Pos PE : clear implicits. Arguments lstate Pos : clear implicits.

(** ** Setup *)
(** indent.go:59-61 *)
Definition spaceCommand : name := Eval vm_compute in LangText.bytes "space".
Definition onIndentCommand : name := Eval vm_compute in LangText.bytes "on-indent".
Definition onDedentCommand : name := Eval vm_compute in LangText.bytes "on-dedent".
Section Setup.
(** parser.go:201-204: Parser.TokenType; Parser.Tokens *)
Variable tokenType : name -> option Z.
Variable tokens : list gtoken.
(** indent.go:371-376: local variables *)
Record isetup := mkIs { isMax : Z; isGot : bool; isRoles : list (Z * role); isIn : name; isDe : name }.
(** indent.go:378-383 *)
Fixpoint sideRoles (i : Z) (ts : list gtoken) (s : isetup) : isetup :=
  match ts with
  | [] => s
  | d :: r => sideRoles (i + 1) r (if hasFlag (gtFlags d) SideToken then mkIs i (isGot s) ((i, RSide) :: isRoles s) (isIn s) (isDe s) else s)
  end.
(** indent.go:394-404 *)
Fixpoint spaceRoles (args : list name) (s : isetup) : isetup + stdError :=
  match args with
  | [] => inl s
  | n :: r =>
      match tokenType n with
      | None => inr (UnknownType spaceCommand n)
      | Some ty => spaceRoles r (mkIs (if isMax s <=? ty then ty else isMax s) (isGot s) ((ty, RSpace) :: isRoles s) (isIn s) (isDe s))
      end
  end.
(** indent.go:386-428 *)
Definition isCommand (c : gcommand) (s : isetup) : isetup + stdError :=
  let cmd := gcName c in
  if nameEqb cmd spaceCommand then
    match gcArgs c with
    | [] => inr (NumberOfArguments cmd)
    | args => spaceRoles args (mkIs (isMax s) true (isRoles s) (isIn s) (isDe s))
    end
  else if nameEqb cmd onIndentCommand || nameEqb cmd onDedentCommand then
    match gcArgs c with
    | [n] =>
        match tokenType n with
        | None => inr (UnknownType cmd n)
        | Some ty =>
            if ty <? 0 then inr (UnknownType cmd n)
            else
              let prev := if nameEqb cmd onIndentCommand then isIn s else isDe s in
              if negb (nameEqb prev []) then inr (CommandAlreadyUsed cmd)
              else inl (if nameEqb cmd onIndentCommand then mkIs (isMax s) (isGot s) (isRoles s) n (isDe s) else mkIs (isMax s) (isGot s) (isRoles s) (isIn s) n)
        end
    | _ => inr (NumberOfArguments cmd)
    end
  else inl s.
Fixpoint isCommands (cs : list gcommand) (s : isetup) : isetup + stdError :=
  match cs with
  | [] => inl s
  | c :: r => match isCommand c s with inl s => isCommands r s | inr e => inr e end
  end.
(** indent.go:443-446; the oldest pair comes first (a later one with the same key replaces it) *)
Fixpoint fillRoles (m : list (Z * role)) (l : list role) : option (list role) :=
  match m with
  | [] => Some l
  | (i, r) :: m => do l <- fillRoles m l ; zset l i r
  end.
(** indent.go:370-449: names of types for indents and dedents; roles *)
Definition isSetup (cs : list gcommand) : option ((name * name * list role) + stdError) :=
  match isCommands cs (sideRoles 0 tokens (mkIs 0 false [] [] [])) with
  | inr e => Some (inr e)
  | inl s =>
      if negb (isGot s) then Some (inr (MissingCommand spaceCommand))
      else if nameEqb (isIn s) [] then Some (inr (MissingCommand onIndentCommand))
      else if nameEqb (isDe s) [] then Some (inr (MissingCommand onDedentCommand))
      else
        do l <- zmake RCommon (isMax s + 1) ;
        do l <- fillRoles (isRoles s) l ;
        Some (inl (isIn s, isDe s, l))
  end.
End Setup.
