(** Model of hook layers: /repo/parser/hooks.go (lines 68-101, 189-207), /repo/parser/parser.go (lines 52-83, 103-131, 240-342).
    - Go maps are lists of pairs: reading gives the first pair with the key; a loop goes in the order of the list.
    - Hooks, templates and layers are of arbitrary types.
    - Outer [None] is a panic. *)
From Coq Require Import String ZArith List Bool.
From Verif Require Import Base Grammar LangTypes.
From Verif Require Lexer LangText Parser.
Import ListNotations.
Local Open Scope string_scope.
Open Scope Z_scope.

Notation nget := LangText.nget.
Notation nput := LangText.nput.

(** ** Registry *)
(** hooks.go:189-192: knownHookLayers (the lock makes registrations sequential) *)
Definition registry (T : Type) := list (name * T).
(** hooks.go:196-207; [true] if registered, [false] for LayerRegisteredError *)
Definition registerHookLayer {T} (n : name) (tpl : T) (r : registry T) : registry T * bool :=
  match nget n r with
  | Some _ => (r, false)
  | None => (nput n tpl r, true)
  end.
(** a history of calls of RegisterHookLayer and their results *)
Fixpoint registerAll {T} (h : list (name * T)) (r : registry T) : registry T * list bool :=
  match h with
  | [] => (r, [])
  | (n, t) :: h =>
      let (r, b) := registerHookLayer n t r in
      let (r, l) := registerAll h r in (r, b :: l)
  end.

(** ** Layers of a parser *)
Inductive layerError (E : Type) :=
| UnknownLayer (n : name)
| SetupError (e : E).
Arguments UnknownLayer {E} n. Arguments SetupError {E} e.
Section New.
Context {T L E : Type}.
(** HookLayerTemplate.Setup *)
Variable setup : T -> list gcommand -> L + E.
(** parser.go:109-131; [own] are templates given by WithLayerTemplates *)
Fixpoint newLayers (own : list (name * T)) (known : registry T) (defs : list glayer) : list L + layerError E :=
  match defs with
  | [] => inl []
  | d :: r =>
      match (match nget (glType d) own with Some t => Some t | None => nget (glType d) known end) with
      | None => inr (UnknownLayer (glType d))
      | Some t =>
          match setup t (glCommands d) with
          | inr e => inr (SetupError e)
          | inl l => match newLayers own known r with inl ls => inl (l :: ls) | inr e => inr e end
          end
      end
  end.
End New.

(** ** Names *)
(** hooks.go:68-79 *)
Definition anyName : name := [].
Definition eofName : name := Eval vm_compute in LangText.bytes "-eof-".
Definition eoiName : name := Eval vm_compute in LangText.bytes "-eoi-".
Record tables := mkTables { tbTokenNames : list (name * Z); tbLiterals : list (name * Z); tbNodeNames : list (name * Z) }.
(** parser.go:73-78 *)
Fixpoint addTokens (i : Z) (ts : list gtoken) (tb : tables) : tables :=
  match ts with
  | [] => tb
  | t :: r =>
      addTokens (i + 1) r
        (if hasFlag (gtFlags t) LiteralToken then mkTables (tbTokenNames tb) (nput (gtName t) i (tbLiterals tb)) (tbNodeNames tb)
         else if negb (hasFlag (gtFlags t) ErrorToken) then mkTables (nput (gtName t) i (tbTokenNames tb)) (tbLiterals tb) (tbNodeNames tb)
         else tb)
  end.
(** parser.go:103-105 *)
Fixpoint addNodes (i : Z) (ns : list gnode) (tb : tables) : tables :=
  match ns with
  | [] => tb
  | n :: r => addNodes (i + 1) r (mkTables (tbTokenNames tb) (tbLiterals tb) (nput (gnName n) i (tbNodeNames tb)))
  end.
(** parser.go:64-72: special names *)
Definition newTables (g : grammar) : tables :=
  addNodes 0 (gNodes g) (addTokens 0 (gTokens g)
    (mkTables (nput eoiName Lexer.EoiTokenType (nput eofName Lexer.EofTokenType (nput anyName AnyToken []))) [] (nput anyName (-1) []))).

(** ** Hooks of a parse *)
Section Hooks.
Context {TH NH : Type}.
(** hooks.go:86-101 *)
Record hooks := mkHooks { hTokens : list (name * TH); hLiterals : list (name * TH); hNodes : list (name * NH) }.
(** ParseContext.literals, .tokenHooks, .nodeHooks *)
Record installed := mkInst { iLiterals : list (name * Z); iTokens : list (list (option TH)); iNodes : list (list (option NH)) }.
Inductive hookError := UnknownTokenType (n : name) | UnknownNode (n : name).
Variable g : grammar.
Local Notation tb := (newTables g).

(** parser.go:283-292 *)
Fixpoint maxTokens (l : list (name * TH)) (m : Z) : Z + hookError :=
  match l with
  | [] => inl m
  | (k, _) :: r => match nget k (tbTokenNames tb) with None => inr (UnknownTokenType k) | Some i => maxTokens r (Z.max i m) end
  end.
(** parser.go:294-303 *)
Fixpoint maxLiterals (l : list (name * TH)) (lits : list (name * Z)) (m : Z) : list (name * Z) * Z :=
  match l with
  | [] => (lits, m)
  | (k, _) :: r =>
      match nget k lits with
      | Some i => maxLiterals r lits (Z.max i m)
      | None =>
          let i := zlen (gTokens g) + zlen lits - zlen (tbLiterals tb) in
          maxLiterals r (nput k i lits) (Z.max i m)
      end
  end.
(** parser.go:310-312 *)
Fixpoint setTokens (l : list (name * TH)) (t : list (option TH)) : option (list (option TH)) :=
  match l with
  | [] => Some t
  | (k, h) :: r =>
      let i := match nget k (tbTokenNames tb) with Some i => i | None => 0 end in
      do t <- zset t (i + Parser.tokenHooksOffset) (Some h) ; setTokens r t
  end.
(** parser.go:314-320 *)
Fixpoint setLiterals (lits : list (name * Z)) (l : list (name * TH)) (t : list (option TH)) : option (list (option TH)) :=
  match l with
  | [] => Some t
  | (k, h) :: r =>
      let i := match nget k (tbLiterals tb) with Some i => i | None => match nget k lits with Some i => i | None => 0 end end in
      do t <- zset t (i + Parser.tokenHooksOffset) (Some h) ; setLiterals lits r t
  end.
(** parser.go:325-334 *)
Fixpoint setNodes (l : list (name * NH)) (t : list (option NH)) : option (list (option NH) + hookError) :=
  match l with
  | [] => Some (inl t)
  | (k, h) :: r =>
      match nget k (tbNodeNames tb) with
      | None => Some (inr (UnknownNode k))
      | Some i => do t <- zset t (i + 1) (Some h) ; setNodes r t
      end
  end.
(** parser.go:279-338; the error comes with what has been done *)
Definition newTokenHooks (hs : hooks) (st : installed) : option (installed * option hookError) :=
  match hTokens hs, hLiterals hs with
  | [], [] => Some (st, None)
  | _, _ =>
      match maxTokens (hTokens hs) 0 with
      | inr e => Some (st, Some e)
      | inl m =>
          let (lits, m) := maxLiterals (hLiterals hs) (iLiterals st) m in
          do t <- zmake None (m + Parser.tokenHooksOffset + 1) ;
          do t <- setTokens (hTokens hs) t ;
          do t <- setLiterals lits (hLiterals hs) t ;
          Some (mkInst lits (iTokens st ++ [t]) (iNodes st), None)
      end
  end.
Definition newHookLayer (hs : hooks) (st : installed) : option (installed * option hookError) :=
  do r <- newTokenHooks hs st ;
  match r with
  | (st, Some e) => Some (st, Some e)
  | (st, None) =>
      match hNodes hs with
      | [] => Some (st, None)
      | _ =>
          do t <- zmake None (zlen (gNodes g) + 1) ;
          do r <- setNodes (hNodes hs) t ;
          match r with
          | inr e => Some (st, Some e)
          | inl t => Some (mkInst (iLiterals st) (iTokens st) (iNodes st ++ [t]), None)
          end
      end
  end.
(** parser.go:269-272: hooks of layers (from the last one to the first one); the error is dropped *)
Fixpoint installLayers (l : list hooks) (st : installed) : option installed :=
  match l with
  | [] => Some st
  | hs :: r => do x <- newHookLayer hs st ; installLayers r (fst x)
  end.
(** parser.go:245-272; [layers] are the results of Init, in the order of layers; [dflt] is defaultNodeHook *)
Definition installHooks (dflt : NH) (user : hooks) (layers : list hooks) : option (installed + hookError) :=
  do x <- newHookLayer user (mkInst (tbLiterals tb) [] []) ;
  match x with
  | (_, Some e) => Some (inr e)
  | (st, None) =>
      do st <- (match hNodes user with
                | [] => Some st
                | _ => match iNodes st with
                       | (None :: t) :: r => Some (mkInst (iLiterals st) (iTokens st) ((Some dflt :: t) :: r))
                       | (Some _ :: _) :: _ => Some st
                       | _ => None
                       end
                end) ;
      do st <- installLayers (rev layers) st ;
      Some (inl st)
  end.
End Hooks.
Arguments hooks TH NH : clear implicits. Arguments installed TH NH : clear implicits.
