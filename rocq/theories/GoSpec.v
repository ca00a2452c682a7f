(** Specification: what Go files of one variable, a grammar, mean (The Go Programming Language Specification).
    It is a part of Go: files with anything else (other operators, other types, raw strings and so on) are not read; whatever is read has the meaning it has in Go. *)
From Coq Require Import String ZArith List Bool.
From Verif Require Import Base Utf8 Grammar LangTypes LangStringSpec.
From Verif Require LangString LangText.
Import ListNotations.
Local Open Scope string_scope.
Local Open Scope list_scope.
Open Scope Z_scope.
Notation bytes := LangText.bytes.

(** "Source code is Unicode text encoded in UTF-8"; compilers refuse NUL and the byte order mark within the text *)
Inductive goText : list Z -> Prop :=
| GT_nil : goText []
| GT_rune r u s : aRune r -> r <> 0 -> r <> 65279 -> utf8 r u -> goText s -> goText (u ++ s).

(** ** Tokens *)
Inductive gotok := GIdent (n : name) | GKey (n : name) | GInt (n : Z) | GStr (s : list Z) | GOp (c : Z) | GSemi.
Definition keywords : list name := Eval vm_compute in map bytes
  ["break"; "case"; "chan"; "const"; "continue"; "default"; "defer"; "else"; "fallthrough"; "for"; "func"; "go"; "goto"; "if"; "import"; "interface"; "map"; "package"; "range"; "return"; "select"; "struct"; "switch"; "type"; "var"].
Definition isKey (n : name) : bool := existsb (nameEqb n) keywords.
Definition letterB (c : Z) : bool := between 65 90 c || between 97 122 c || (c =? 95).
Definition digitB (c : Z) : bool := between 48 57 c.
(** & - . , : = { } [ ] *)
Definition opB (c : Z) : bool := existsb (Z.eqb c) [38; 45; 46; 44; 58; 61; 123; 125; 91; 93].

(** What is being read; [semi]: "a semicolon is inserted after a line's final token if that token is an identifier, a literal, ) ] or }" *)
Inductive mode :=
| Idle (semi : bool)
| Word (acc : list Z)                         (* bytes so far, the last one first *)
| Num (v : Z) (zero : bool)                   (* [zero]: the first digit is 0 *)
| Text (acc : list Z)
| Esc (acc : list Z)
| Hex (acc : list Z) (rune : bool) (more : nat) (v : Z)
| Slash (semi : bool)
| Comment (semi : bool).
Definition word (acc : list Z) : gotok := let n := rev acc in if isKey n then GKey n else GIdent n.
Definition idle (semi : bool) (c : Z) : option (list gotok * mode) :=
  if (c =? 32) || (c =? 9) || (c =? 13) then Some ([], Idle semi)
  else if c =? 10 then Some (if semi then [GSemi] else [], Idle false)
  else if letterB c then Some ([], Word [c])
  else if digitB c then Some ([], Num (c - 48) (c =? 48))
  else if c =? 34 then Some ([], Text [])
  else if c =? 47 then Some ([], Slash semi)
  else if opB c then Some ([GOp c], Idle ((c =? 125) || (c =? 93)))
  else None.
Definition escaped (c : Z) : option Z :=
  if c =? 97 then Some 7 else if c =? 98 then Some 8 else if c =? 102 then Some 12 else if c =? 110 then Some 10 else if c =? 114 then Some 13
  else if c =? 116 then Some 9 else if c =? 118 then Some 11 else if (c =? 92) || (c =? 34) then Some c else None.
Definition step (m : mode) (c : Z) : option (list gotok * mode) :=
  match m with
  | Idle semi => idle semi c
  | Word acc =>
      if letterB c || digitB c then Some ([], Word (c :: acc))
      else do x <- idle (match word acc with GKey n => existsb (nameEqb n) (map bytes ["break"; "continue"; "fallthrough"; "return"]) | _ => true end) c ;
           Some (word acc :: fst x, snd x)
  | Num v zero =>
      if digitB c then if zero then None else Some ([], Num (v * 10 + (c - 48)) false)
      else if letterB c || (c =? 46) then None
      else do x <- idle true c ; Some (GInt v :: fst x, snd x)
  | Text acc =>
      if c =? 34 then Some ([GStr (rev acc)], Idle true)
      else if c =? 92 then Some ([], Esc acc)
      else if c =? 10 then None
      else Some ([], Text (c :: acc))
  | Esc acc =>
      match escaped c with
      | Some b => Some ([], Text (b :: acc))
      | None =>
          if c =? 120 then Some ([], Hex acc false 2 0)
          else if c =? 117 then Some ([], Hex acc true 4 0)
          else if c =? 85 then Some ([], Hex acc true 8 0)
          else None
      end
  | Hex acc rune more v =>
      do d <- LangString.hexDigit c ;
      let v := v * 16 + d in
      match more with
      | S (S k) => Some ([], Hex acc rune (S k) v)
      | _ =>
          if rune then if LangString.validRune v then Some ([], Text (rev (LangString.encodeRune v) ++ acc)) else None
          else Some ([], Text (v :: acc))
      end
  | Slash semi => if c =? 47 then Some ([], Comment semi) else None
  | Comment semi => if c =? 10 then idle semi c else Some ([], Comment semi)
  end.
Fixpoint run (m : mode) (s : list Z) : option (list gotok * mode) :=
  match s with
  | [] => Some ([], m)
  | c :: r => do x <- step m c ; do y <- run (snd x) r ; Some (fst x ++ fst y, snd y)
  end.
(** a file of whole lines *)
Definition scan (s : list Z) : option (list gotok) :=
  do x <- run (Idle false) s ; match snd x with Idle false => Some (fst x) | _ => None end.

(** ** Expressions *)
(** [qualified] names; slices *)
Inductive gotype := TName (n : list name) | TSlice (t : gotype).
Inductive val :=
| VInt (n : Z)
| VStr (s : list Z)
| VLit (ty : option gotype) (es : list (option name * val))
| VAddr (v : val).
Fixpoint readType (ts : list gotok) : option (gotype * list gotok) :=
  match ts with
  | GOp 91 :: GOp 93 :: r => do x <- readType r ; Some (TSlice (fst x), snd x)
  | GIdent a :: GOp 46 :: GIdent b :: r => Some (TName [a; b], r)
  | GIdent a :: r => Some (TName [a], r)
  | _ => None
  end.
Definition isOp (c : Z) (ts : list gotok) : option (list gotok) :=
  match ts with GOp x :: r => if x =? c then Some r else None | _ => None end.
(** Composite literals: "{", elements divided by commas, a comma may follow the last one, "}"; the number limits the depth *)
Fixpoint readVal (fuel : nat) (ts : list gotok) : option (val * list gotok) :=
  match fuel with
  | O => None
  | S f =>
      match ts with
      | GInt n :: r => Some (VInt n, r)
      | GOp 45 :: GInt n :: r => Some (VInt (- n), r)
      | GStr s :: r => Some (VStr s, r)
      | GOp 123 :: r => do x <- readElems f r ; Some (VLit None (fst x), snd x)
      | GOp 38 :: r => do x <- readVal f r ; Some (VAddr (fst x), snd x)
      | _ =>
          do t <- readType ts ;
          do r <- isOp 123 (snd t) ;
          do x <- readElems f r ; Some (VLit (Some (fst t)) (fst x), snd x)
      end
  end
with readElems (fuel : nat) (ts : list gotok) : option (list (option name * val) * list gotok) :=
  match fuel with
  | O => None
  | S f =>
      match ts with
      | GOp 125 :: r => Some ([], r)
      | _ =>
          let (key, ts) := match ts with GIdent k :: GOp 58 :: r => (Some k, r) | _ => (None, ts) end in
          do v <- readVal f ts ;
          match snd v with
          | GOp 44 :: r => do x <- readElems f r ; Some ((key, fst v) :: fst x, snd x)
          | GOp 125 :: r => Some ([(key, fst v)], r)
          | _ => None
          end
      end
  end.

(** ** Values of types *)
(** an integer constant must be representable *)
Definition asInt (lo hi : Z) (v : option val) : option Z :=
  match v with
  | None => Some 0
  | Some (VInt n) => if (lo <=? n) && (n <=? hi) then Some n else None
  | _ => None
  end.
(** int has 64 bits *)
Definition aInt : option val -> option Z := asInt (- 2 ^ 63) (2 ^ 63 - 1).
Definition aUint64 : option val -> option Z := asInt 0 (2 ^ 64 - 1).
Definition aString (v : option val) : option (list Z) :=
  match v with None => Some [] | Some (VStr s) => Some s | _ => None end.
Fixpoint typeEqb (a b : gotype) : bool :=
  match a, b with
  | TName x, TName y => (length x =? length y)%nat && forallb (fun '(p, q) => nameEqb p q) (combine x y)
  | TSlice a, TSlice b => typeEqb a b
  | _, _ => false
  end.
Fixpoint mapOption {A B} (f : A -> option B) (l : list A) : option (list B) :=
  match l with [] => Some [] | x :: r => do y <- f x ; do ys <- mapOption f r ; Some (y :: ys) end.
(** []T{...} without indexes *)
Definition aSlice {A} (t : gotype) (f : val -> option A) (v : option val) : option (list A) :=
  match v with
  | None => Some []
  | Some (VLit (Some (TSlice t')) es) => if typeEqb t t' then mapOption (fun e => match e with (None, v) => f v | _ => None end) es else None
  | _ => None
  end.
Fixpoint keyed (k : name) (es : list (option name * val)) : option val :=
  match es with
  | [] => None
  | (Some k', v) :: r => if nameEqb k k' then Some v else keyed k r
  | (None, _) :: r => keyed k r
  end.
Fixpoint distinct (l : list name) : bool := match l with [] => true | x :: r => negb (existsb (nameEqb x) r) && distinct r end.
(** Fields of a struct: all with names, fields missing are zero; or all fields in order without names *)
Definition aStruct (fields : list name) (es : list (option name * val)) : option (list (option val)) :=
  if forallb (fun e => match fst e with Some k => existsb (nameEqb k) fields | None => false end) es then
    if distinct (concat (map (fun e => match fst e with Some k => [k] | None => [] end) es)) then Some (map (fun k => keyed k es) fields) else None
  else if forallb (fun e => match fst e with None => true | _ => false end) es && (length es =? length fields)%nat then Some (map (fun e => Some (snd e)) es)
  else None.
(** an element of a slice: its type is omitted *)
Definition anElem (fields : list name) (v : val) : option (list (option val)) :=
  match v with VLit None es => aStruct fields es | _ => None end.

(** The types of /repo/grammar/grammar.go *)
Definition gType (s : string) : gotype := TName [bytes "grammar"; bytes s].
Definition readToken (v : val) : option gtoken :=
  do fs <- anElem (map bytes ["Name"; "Re"; "Group"; "Flags"]) v ;
  match fs with
  | [n; re; g; fl] => do n <- aString n ; do re <- aString re ; do g <- aInt g ; do fl <- aInt fl ; Some (mkTok n re g fl)
  | _ => None
  end.
Definition readCommand (shadowed : bool) (v : val) : option gcommand :=
  do fs <- anElem (map bytes ["Command"; "Arguments"]) v ;
  match fs with
  | [c; a] =>
      do c <- aString c ;
      do a <- (match a with Some _ => if shadowed then None else aSlice (TName [bytes "string"]) (fun v => aString (Some v)) a | None => Some [] end) ;
      Some (mkCmd c a)
  | _ => None
  end.
Definition readLayer (shadowed : bool) (v : val) : option glayer :=
  do fs <- anElem (map bytes ["Type"; "Commands"]) v ;
  match fs with [t; c] => do t <- aString t ; do c <- aSlice (gType "LayerCommand") (readCommand shadowed) c ; Some (mkLayer t c) | _ => None end.
Definition readNode (v : val) : option gnode :=
  do fs <- anElem (map bytes ["Name"; "FirstState"]) v ;
  match fs with [n; f] => do n <- aString n ; do f <- aInt f ; Some (mkNode n f) | _ => None end.
Definition readState (v : val) : option state :=
  do fs <- anElem (map bytes ["TokenTypes"; "LowMultiRule"; "HighMultiRule"; "LowRule"; "HighRule"]) v ;
  match fs with
  | [t; lm; hm; l; h] => do t <- aUint64 t ; do lm <- aInt lm ; do hm <- aInt hm ; do l <- aInt l ; do h <- aInt h ; Some (mkState t lm hm l h)
  | _ => None
  end.
Definition readMulti (v : val) : option multiRule :=
  do fs <- anElem (map bytes ["Token"; "LowRule"; "HighRule"]) v ;
  match fs with [t; l; h] => do t <- aInt t ; do l <- aInt l ; do h <- aInt h ; Some (mkMulti t l h) | _ => None end.
Definition readRule (v : val) : option rule :=
  do fs <- anElem (map bytes ["Token"; "State"; "Node"]) v ;
  match fs with [t; s; n] => do t <- aInt t ; do s <- aInt s ; do n <- aInt n ; Some (mkRule t s n) | _ => None end.
Definition readGrammar (shadowed : bool) (v : val) : option grammar :=
  match v with
  | VAddr (VLit (Some t) es) =>
      if typeEqb t (gType "Grammar") then
        do fs <- aStruct (map bytes ["Tokens"; "Layers"; "Nodes"; "States"; "MultiRules"; "Rules"]) es ;
        match fs with
        | [t; l; n; s; m; r] =>
            do t <- aSlice (gType "Token") readToken t ;
            do l <- aSlice (gType "Layer") (readLayer shadowed) l ;
            do n <- aSlice (gType "Node") readNode n ;
            do s <- aSlice (gType "State") readState s ;
            do m <- aSlice (gType "MultiRule") readMulti m ;
            do r <- aSlice (gType "Rule") readRule r ;
            Some (mkGrammar t l n s m r)
        | _ => None
        end
      else None
  | _ => None
  end.

(** ** Files *)
(** the name of the package, the name of the variable, its value *)
Record goFile := mkFile { fPackage : name; fVar : name; fGrammar : grammar }.
(** Names a variable of a package cannot have: that of the imported package, init, main in package main *)
Definition varOk (pkg v : name) : bool :=
  negb (nameEqb v (bytes "grammar")) && negb (nameEqb v (bytes "init")) && negb (nameEqb v (bytes "main") && nameEqb pkg (bytes "main")).
Definition keyIs (k : string) (ts : list gotok) : option (list gotok) :=
  match ts with GKey n :: r => if nameEqb n (bytes k) then Some r else None | _ => None end.
Definition semi (ts : list gotok) : option (list gotok) := match ts with GSemi :: r => Some r | _ => None end.
Definition ident (ts : list gotok) : option (name * list gotok) := match ts with GIdent n :: r => Some (n, r) | _ => None end.
Definition str (s : string) (ts : list gotok) : option (list gotok) := match ts with GStr t :: r => if nameEqb t (bytes s) then Some r else None | _ => None end.
Definition readFile (ts : list gotok) : option goFile :=
  do r <- keyIs "package" ts ; do p <- ident r ; do r <- semi (snd p) ;
  do r <- keyIs "import" r ; do r <- str "github.com/ava12/llx/grammar" r ; do r <- semi r ;
  do r <- keyIs "var" r ; do v <- ident r ; do r <- isOp 61 (snd v) ;
  do x <- readVal (length r) r ; do r <- semi (snd x) ;
  match r with
  | [] =>
      if negb (nameEqb (fst p) (bytes "_")) && varOk (fst p) (fst v) then
        do g <- readGrammar (nameEqb (fst v) (bytes "string")) (fst x) ; Some (mkFile (fst p) (fst v) g)
      else None
  | _ => None
  end.
(** The text is a Go file with this content *)
Definition isGoFile (text : list Z) (f : goFile) : Prop := goText text /\ exists ts, scan text = Some ts /\ readFile ts = Some f.
