(** Model of the parsing process: /repo/parser/parser.go, hooks.go, misc.go.

    Tokens, sources, hook instances, hook results and errors are arbitrary types; what
    lexers and hooks do is given by arbitrary functions of the state of the sources and of the
    rest of the world [W].  Since [W] is arbitrary, a hook that looks at anything else (the
    clock, the node stack) is covered: let [W] hold its future answers.  Queues of tokens and
    rules are lists (see Prop_Queue for queue.Queue). *)
From Coq Require Import ZArith List Bool.
From Verif Require Import Base Grammar Rules.
From Verif Require Lexer.
Import ListNotations.
Open Scope Z_scope.

Definition EofTokenType : Z := Lexer.EofTokenType.
Definition EoiTokenType : Z := Lexer.EoiTokenType.
Definition LowestTokenType : Z := Lexer.LowestTokenType.
Definition AllTokenTypes : Z := Lexer.AllTokenTypes.

Section Parser.
Context {Tok Src W E Inst R : Type}.

(** An error: returned by a hook or a lexer, by the context, or made by the parser
    (errors.go; token and message are reduced to the code). *)
Inductive err :=
| External (e : E)
| UnexpectedEoi (t : Tok) (expected : list Z)
| UnexpectedToken (t : Tok) (expected : list Z)
| EmitWrongToken (t : Tok)
| RemainingSource (t : Tok).

Definition world := (Src * W)%type.

(** ** Hooks *)

(** hooks.go:12-18: the body of a token hook.  It may look ahead (PeekToken), read and
    change the world, and returns the emit flag, extra tokens and an error. *)
Inductive prog :=
| PRet (emit : bool) (extra : list Tok) (e : option E)
| PPeek (k : option Tok * option E -> prog)
| PWorld (f : world -> world) (k : world -> prog).
Definition tokenHook := Tok -> prog.

(** hooks.go:40-42: node hook (constructor); hooks.go:20-38: methods of an instance *)
Definition nodeHook := Z -> option Tok -> world -> world * (option Inst * option E).
Record methods := mkMethods {
  mNewNode : Inst -> Z -> option Tok -> world -> world * option E;
  mHandleNode : Inst -> Z -> option R -> world -> world * option E;
  mHandleToken : Inst -> Tok -> world -> world * option E;
  mEndNode : Inst -> world -> world * (option R * option E)
}.

(** Everything fixed for one parse:
    - token type, token text, strings.ToUpper;
    - methods of node hook instances;
    - the grammar;
    - parser.lexers: NextOf of each group (see Lexer.v);
    - ParseContext.literals: literals of the grammar and literals having hooks only;
    - ParseContext.tokenHooks[i].hooks, ParseContext.nodeHooks;
    - ctx.Err();
    - options passSides, watchNodes, fullSource;
    - going back to an unused token (parser.go:523-531). *)
Record config := mkConfig {
  cType : Tok -> Z; cText : Tok -> list Z; cUpper : list Z -> list Z;
  cMethods : methods;
  cGrammar : grammar;
  cLexers : list (Src -> Z -> Src * (option Tok * option E));
  cLiterals : list Z -> option Z;
  cTokenHooks : list (list (option tokenHook));
  cNodeHooks : list (list (option nodeHook));
  cCtx : world -> world * option E;
  cPassSides : bool; cWatchNodes : bool; cFullSource : bool;
  cUnread : Tok -> Src -> Src
}.
Variable c : config.
Local Notation ttype := (cType c).
Local Notation ttext := (cText c).
Local Notation toUpper := (cUpper c).
Local Notation M := (cMethods c).
Local Notation g := (cGrammar c).
Local Notation lexers := (cLexers c).
Local Notation hookLiterals := (cLiterals c).
Local Notation tokenHooks := (cTokenHooks c).
Local Notation nodeHooks := (cNodeHooks c).
Local Notation ctxErr := (cCtx c).
Local Notation passSides := (cPassSides c).
Local Notation watchNodes := (cWatchNodes c).
Local Notation fullSource := (cFullSource c).
Local Notation unread := (cUnread c).

(** misc.go:5-11; NodeHookInstance may be nil *)
Record nodeRec := mkNodeRec {
  nHooks : list (option Inst); nSides : list Tok; nTypes : Z; nIndex : Z; nState : Z
}.

(** What happens in a parse: calls of node hooks (with the layer); errors of node hooks; checks
    of the context; tokens given out by a hook layer ([EvPass]; the one above the last layer
    stands for the lexers); decisions of hook layers about tokens; other errors; tokens the
    parser takes from the stream ([EvNext]) and tokens it finds after the root node
    ([EvRest]). *)
Inductive event :=
| EvCreate (layer : nat) (node : Z) (t : option Tok) (i : option Inst)
| EvNewNode (layer : nat) (i : Inst) (node : Z) (t : option Tok)
| EvToken (layer : nat) (i : Inst) (t : Tok)
| EvNode (layer : nat) (i : Inst) (node : Z) (res : option R)
| EvEnd (layer : nat) (i : Inst) (res : option R)
| EvNodeFail (e : E)
| EvCheck
| EvPass (layer : nat) (t : option Tok)
| EvDecide (layer : nat) (t : Tok) (emit : bool) (extra : list Tok)
| EvFail (e : E)
| EvWrong (t : Tok)
| EvNext (t : option Tok)
| EvRest (t : Tok).

(** parser.go:219-233; the node stack has its top first; [pLog] (latest first) and [pLost]
    are not in the code: [pLost] is set when resolveConflict overwrites a branch it has not
    processed yet. *)
Record pstate := mkP {
  pWorld : world;
  pTokens : list (option Tok);
  pQueues : list (list Tok);
  pApplied : list rule;
  pLast : option R;
  pStack : list nodeRec;
  pLog : list event;
  pLost : bool
}.

Definition setWorld (s : pstate) w := mkP w (pTokens s) (pQueues s) (pApplied s) (pLast s) (pStack s) (pLog s) (pLost s).
Definition setTokens (s : pstate) x := mkP (pWorld s) x (pQueues s) (pApplied s) (pLast s) (pStack s) (pLog s) (pLost s).
Definition setQueues (s : pstate) x := mkP (pWorld s) (pTokens s) x (pApplied s) (pLast s) (pStack s) (pLog s) (pLost s).
Definition setApplied (s : pstate) x := mkP (pWorld s) (pTokens s) (pQueues s) x (pLast s) (pStack s) (pLog s) (pLost s).
Definition setLast (s : pstate) x := mkP (pWorld s) (pTokens s) (pQueues s) (pApplied s) x (pStack s) (pLog s) (pLost s).
Definition setStack (s : pstate) x := mkP (pWorld s) (pTokens s) (pQueues s) (pApplied s) (pLast s) x (pLog s) (pLost s).
Definition log (ev : event) (s : pstate) := mkP (pWorld s) (pTokens s) (pQueues s) (pApplied s) (pLast s) (pStack s) (ev :: pLog s) (pLost s).
Definition setLost (s : pstate) x := mkP (pWorld s) (pTokens s) (pQueues s) (pApplied s) (pLast s) (pStack s) (pLog s) x.

(** Result of a step: value, error, panic, or the fuel has run out. *)
Inductive res (A : Type) :=
| Done (a : A) (s : pstate)
| Fail (e : err) (s : pstate)
| Panic
| NoFuel (s : pstate).
Arguments Done {A}. Arguments Fail {A}. Arguments Panic {A}. Arguments NoFuel {A}.

Definition bind {A B} (m : res A) (k : A -> pstate -> res B) : res B :=
  match m with Done a s => k a s | Fail e s => Fail e s | Panic => Panic | NoFuel s => NoFuel s end.
Local Notation "'let!' ( x , s ) := m 'in' k" := (bind m (fun x s => k)) (at level 200, x pattern, s name, m at level 100, k at level 200, right associativity).

(** Result of an external call: an error is logged. *)
Definition nret (e : option E) (s : pstate) : res unit :=
  match e with None => Done tt s | Some e => Fail (External e) (log (EvNodeFail e) s) end.
Definition ret (e : option E) (s : pstate) : res unit :=
  match e with None => Done tt s | Some e => Fail (External e) (log (EvFail e) s) end.

Definition setNHooks (n : nodeRec) x := mkNodeRec x (nSides n) (nTypes n) (nIndex n) (nState n).
Definition setNSides (n : nodeRec) x := mkNodeRec (nHooks n) x (nTypes n) (nIndex n) (nState n).
Definition setNState (n : nodeRec) x := mkNodeRec (nHooks n) (nSides n) (nTypes n) (nIndex n) x.
Definition setNTypes (n : nodeRec) x := mkNodeRec (nHooks n) (nSides n) x (nIndex n) (nState n).

(** ** Calls of node hooks: loops over node.hooks *)

Fixpoint newNodes (layer : nat) (hooks : list (option Inst)) (node : Z) (t : option Tok) (s : pstate) : res unit :=
  match hooks with
  | [] => Done tt s
  | None :: r => newNodes (S layer) r node t s
  | Some i :: r =>
      let (w, e) := mNewNode M i node t (pWorld s) in
      let! (_, s) := nret e (log (EvNewNode layer i node t) (setWorld s w)) in
      newNodes (S layer) r node t s
  end.
Fixpoint handleTokens (layer : nat) (hooks : list (option Inst)) (t : Tok) (s : pstate) : res unit :=
  match hooks with
  | [] => Done tt s
  | None :: r => handleTokens (S layer) r t s
  | Some i :: r =>
      let (w, e) := mHandleToken M i t (pWorld s) in
      let! (_, s) := nret e (log (EvToken layer i t) (setWorld s w)) in
      handleTokens (S layer) r t s
  end.
(** parser.go:426-443; results of nil hooks are nil *)
Fixpoint endNodes (layer : nat) (hooks : list (option Inst)) (s : pstate) : res (list (option R)) :=
  match hooks with
  | [] => Done [] s
  | None :: r => let! (l, s) := endNodes (S layer) r s in Done (None :: l) s
  | Some i :: r =>
      let '(w, (x, e)) := mEndNode M i (pWorld s) in
      let! (_, s) := nret e (log (EvEnd layer i x) (setWorld s w)) in
      let s := if (layer =? 0)%nat && watchNodes then setLast s x else s in
      let! (l, s) := endNodes (S layer) r s in Done (x :: l) s
  end.
(** parser.go:452-463 *)
Fixpoint handleNodes (layer : nat) (hooks : list (option Inst)) (node : Z) (results : list (option R)) (s : pstate) : res unit :=
  match hooks with
  | [] => Done tt s
  | h :: r =>
      match h, results with
      | None, _ => handleNodes (S layer) r node (tl results) s
      | Some _, [] => Panic
      | Some i, x :: xs =>
          let (w, e) := mHandleNode M i node x (pWorld s) in
          let! (_, s) := nret e (log (EvNode layer i node x) (setWorld s w)) in
          handleNodes (S layer) r node xs s
      end
  end.

(** parser.go:651-663.  [nodeHooksOffset] is 1. *)
Definition getNodeHook (layer : nat) (table : list (option nodeHook)) (node : Z) (t : option Tok) (s : pstate) : res (option Inst) :=
  match zget table (node + 1), zget table 0 with
  | Some h, Some any =>
      match (match h with Some _ => h | None => any end) with
      | Some h =>
          let '(w, (i, e)) := h node t (pWorld s) in
          let! (_, s) := nret e (log (EvCreate layer node t i) (setWorld s w)) in
          Done i s
      | None => Done None s
      end
  | _, _ => Panic
  end.
Fixpoint newHooks (layer : nat) (tables : list (list (option nodeHook))) (node : Z) (t : option Tok) (s : pstate) : res (list (option Inst)) :=
  match tables with
  | [] => Done [] s
  | table :: r =>
      let! (i, s) := getNodeHook layer table node t s in
      let! (l, s) := newHooks (S layer) r node t s in
      Done (i :: l) s
  end.

Fixpoint handleTokenList (hooks : list (option Inst)) (ts : list Tok) (s : pstate) : res unit :=
  match ts with
  | [] => Done tt s
  | t :: r => let! (_, s) := handleTokens 0 hooks t s in handleTokenList hooks r s
  end.

Definition setTop (s : pstate) (n : nodeRec) : pstate := setStack s (n :: tl (pStack s)).

(** parser.go:842-862, for the top of the stack *)
Definition handleNodeSides (s : pstate) : res unit :=
  match pStack s with
  | [] => Done tt s
  | n :: _ =>
      let! (_, s) := handleTokenList (nHooks n) (nSides n) s in
      Done tt (setTop s (setNSides n []))
  end.

(** parser.go:864-887 *)
Definition handleNodeToken (t : option Tok) (s : pstate) : res unit :=
  match t, pStack s with
  | None, _ => Done tt s
  | Some _, [] => Panic
  | Some t, n :: _ =>
      if isSideToken ttype g (Some t) then Done tt (setTop s (setNSides n (nSides n ++ [t])))
      else
        let! (_, s) := handleNodeSides s in
        handleTokens 0 (nHooks n) t s
  end.

(** parser.go:350-395 with useHooks *)
Definition pushNode (node : Z) (t : option Tok) (s : pstate) : res unit :=
  let! (_, s) := handleNodeSides s in
  match zget (gNodes g) node with
  | None => Panic
  | Some nt =>
      let! (_, s) := match pStack s with [] => Done tt s | n :: _ => newNodes 0 (nHooks n) node t s end in
      let! (hooks, s) := newHooks 0 nodeHooks node t s in
      match zget (gStates g) (gnFirst nt) with
      | None => Panic
      | Some st => Done tt (setStack s (mkNodeRec hooks [] (sTypes st) node (gnFirst nt) :: pStack s))
      end
  end.

(** parser.go:408-469: the loop of popNode with useHooks, for the nodes of [stack] *)
Fixpoint popLoop (stack : list nodeRec) (sides : list Tok) (s : pstate) : res unit :=
  match stack with
  | [] => Done tt s
  | n :: rest =>
      if negb (nState n =? FinalState) then Done tt (setTop s (setNSides n sides))
      else
        let! (_, s) := match rest with [] => handleTokenList (nHooks n) sides s | _ => Done tt s end in
        let! (results, s) := endNodes 0 (nHooks n) s in
        let s := setStack s rest in
        match rest with
        | [] => Done tt s
        | p :: _ =>
            let! (_, s) := handleNodes 0 (nHooks p) (nIndex n) results s in
            popLoop rest sides s
        end
  end.
(** parser.go:397-471 *)
Definition popNode (s : pstate) : res unit :=
  match pStack s with
  | [] => Panic
  | n :: rest =>
      let s := setTop s (setNSides n []) in
      popLoop (pStack s) (nSides n) s
  end.

(** ** Fetching tokens *)

(** parser.go:809-830 *)
Fixpoint fetchLoop (ls : list (Src -> Z -> Src * (option Tok * option E))) (types : Z) (src : Src) (first : option E)
  : Src * (option Tok * option E) :=
  match ls with
  | [] => (src, (None, if types =? AllTokenTypes then first else None))
  | l :: r =>
      let '(src, (t, e)) := l src types in
      match t, e with
      | Some _, None => (src, (t, None))
      | _, _ => fetchLoop r types src (match first with Some _ => first | None => e end)
      end
  end.
Definition fetchToken (types : Z) (src : Src) : Src * (option Tok * option E) := fetchLoop lexers types src None.

(** hooks.go:103-109: the changing part of TokenContext ([snap] = Some iff tokenFetched) *)
Record tcontext := mkTC { tcDistance : Z; tcSnap : option Src }.

(** hooks.go:132-140: tokens in the queues of the layers above; [None] = none left *)
Fixpoint peekQueues (qs : list (list Tok)) (distance : Z) : option Tok :=
  match qs with
  | [] => None
  | q :: r => if distance <? zlen q then zget q distance else peekQueues r (distance - zlen q)
  end.
(** hooks.go:124-145 *)
Definition peekToken (above : list (list Tok)) (tc : tcontext) (src : Src) : tcontext * Src * (option Tok * option E) :=
  match tcSnap tc with
  | Some _ => let '(src, r) := fetchToken AllTokenTypes src in (tc, src, r)
  | None =>
      let distance := tcDistance tc in
      match peekQueues above distance with
      | Some t => (mkTC (distance + 1) None, src, (Some t, None))
      | None =>
          let '(src', r) := fetchToken AllTokenTypes src in
          (mkTC (distance + 1) (Some src), src', r)
      end
  end.

(** Running the body of a token hook. *)
Fixpoint runHook (above : list (list Tok)) (p : prog) (tc : tcontext) (w : world) : tcontext * world * (bool * list Tok * option E) :=
  match p with
  | PRet emit extra e => (tc, w, (emit, extra, e))
  | PPeek k =>
      let '(tc, src, r) := peekToken above tc (fst w) in
      runHook above (k r) tc (src, snd w)
  | PWorld f k => let w := f w in runHook above (k w) tc w
  end.

(** hooks.go:147-153.  See SourceQueue.v for Snapshot and Restore. *)
Definition restore (tc : tcontext) (w : world) : world :=
  match tcSnap tc with Some src => (src, snd w) | None => w end.

(** parser.go:753-790: the hook for a token; outer [None] = index out of range *)
Definition tokenHooksOffset : Z := - LowestTokenType.
Definition anyOffset : Z := -1.
Fixpoint firstHook (hooks : list (option tokenHook)) (tts : list Z) : option (option tokenHook) :=
  match tts with
  | [] => Some None
  | i :: r => do h <- zget hooks (i + tokenHooksOffset); match h with Some _ => Some h | None => firstHook hooks r end
  end.
Definition hookFor (hooks : list (option tokenHook)) (t : Tok) : option (option tokenHook) :=
  let maxTokenType := zlen hooks - tokenHooksOffset - 1 in
  let tt := ttype t in
  do tts <- (if tt <? 0 then Some [tt] else
      do d <- zget (gTokens g) tt;
      let lit := if hasFlag (gtFlags d) NoLiteralsToken then []
                 else match hookLiterals (ttext t) with
                      | Some i => if i <=? maxTokenType then [i] else []
                      | None => []
                      end in
      Some (lit ++ (if tt <=? maxTokenType then [tt] else []) ++ [anyOffset]));
  firstHook hooks tts.

(** parser.go:195-197 *)
Definition isValidType (tt : Z) : bool :=
  (LowestTokenType <=? tt) && (tt <? zlen (gTokens g)) && negb (tt =? AnyToken).

Definition checkCtx (s : pstate) : res unit :=
  let (w, e) := ctxErr (pWorld s) in
  ret e (log EvCheck (setWorld s w)).

(** parser.go:753-807 *)
Definition handleToken (t : option Tok) (layer : nat) (hooks : list (option tokenHook)) (s : pstate) : res (bool * list Tok) :=
  match t with
  | None => Done (true, []) s
  | Some tok =>
      let! (_, s) := checkCtx s in
      match hookFor hooks tok with
      | None => Panic
      | Some None => Done (true, []) (log (EvDecide layer tok true []) s)
      | Some (Some hook) =>
          let '(tc, w, (emit, extra, e)) := runHook (skipn (S layer) (pQueues s)) (hook tok) (mkTC 0 None) (pWorld s) in
          let w := restore tc w in
          let special := negb emit && (ttype tok <? 0) in
          let emit' := if special then match extra with [] => true | _ => false end else emit in
          let extra' := if special then match extra with [] => [] | _ => extra ++ [tok] end else extra in
          let! (_, s) := ret e (setWorld s w) in
          Done (emit', extra') (log (EvDecide layer tok emit' extra') s)
      end
  end.

Definition setQueue (s : pstate) (layer : nat) (q : list Tok) : pstate := setQueues s (upd (pQueues s) layer q).
(** parser.go:706-711 *)
Fixpoint appendExtra (layer : nat) (extra : list Tok) (s : pstate) : res unit :=
  match extra with
  | [] => Done tt s
  | t :: r =>
      if negb (isValidType (ttype t)) then Fail (EmitWrongToken t) (log (EvWrong t) s)
      else appendExtra layer r (setQueue s layer (nth layer (pQueues s) [] ++ [t]))
  end.

(** parser.go:697-723: the loop, [pull] is pullToken for the next layer.
    [EvPass layer t]: layer [layer] gives out [t]. *)
Fixpoint pullLoop (pull : pstate -> res (option Tok)) (layer : nat) (hooks : list (option tokenHook)) (fuel : nat) (s : pstate) : res (option Tok) :=
  match fuel with
  | O => NoFuel s
  | S f =>
      let! (t, s) := pull s in
      let! (r, s) := handleToken t layer hooks s in
      let (emit, extra) := r in
      let! (_, s) := appendExtra layer extra s in
      if (emit : bool) then Done t (log (EvPass layer t) s)
      else match nth layer (pQueues s) [] with
           | t :: q => Done (Some t) (log (EvPass layer (Some t)) (setQueue s layer q))
           | [] => pullLoop pull layer hooks f s
           end
  end.
(** parser.go:685-724.  [hs] is the rest of pc.tokenHooks starting with [layer]. *)
Fixpoint pullToken (fuel : nat) (types : Z) (hs : list (list (option tokenHook))) (layer : nat) (s : pstate) : res (option Tok) :=
  match hs with
  | [] =>
      let '(src, (t, e)) := fetchToken types (fst (pWorld s)) in
      let! (_, s) := ret e (setWorld s (src, snd (pWorld s))) in
      Done t (log (EvPass layer t) s)
  | hooks :: hs' =>
      match nth layer (pQueues s) [] with
      | t :: q => Done (Some t) (log (EvPass layer (Some t)) (setQueue s layer q))
      | [] => pullLoop (pullToken fuel types hs' (S layer)) layer hooks fuel s
      end
  end.

(** parser.go:671-682 *)
Fixpoint nextLoop (fuel : nat) (types : Z) (s : pstate) : res (option Tok) :=
  match fuel with
  | O => NoFuel s
  | S f =>
      let! (t, s) := pullToken fuel types tokenHooks 0 s in
      let isSide := match t with Some t => isSideType g (ttype t) | None => false end in
      let isEof := match t with Some t => ttype t =? EofTokenType | None => false end in
      if negb isEof && (negb isSide || passSides) then Done t s else nextLoop f types s
  end.
(** parser.go:665-683 *)
Definition nextToken (fuel : nat) (types : Z) (s : pstate) : res (option Tok) :=
  match pTokens s with
  | t :: r => Done t (setTokens s r)
  | [] => nextLoop fuel types s
  end.

(** ** Lookahead *)

(** misc.go:64-67; nodes of a branch have no hooks *)
Record branch := mkBranch { bStack : list nodeRec; bRules : list rule }.

(** parser.go:397-471 without hooks (no sides there) *)
Fixpoint dryPop (stack : list nodeRec) : list nodeRec :=
  match stack with
  | [] => []
  | n :: r => if nState n =? FinalState then dryPop r else stack
  end.

(** parser.go:889-915 without hooks *)
Definition dryRule (t : option Tok) (r : rule) (stack : list nodeRec) : option (bool * list nodeRec) :=
  match stack with
  | [] => None
  | n :: rest =>
      let same := rNode r =? SameNode in
      let consumed := (same && negb (rToken r =? AnyToken)) || match t with None => true | Some _ => false end in
      do n <- (if rState r =? repeatState then Some n
               else let n := setNState n (rState r) in
                    if rState r =? FinalState then Some n
                    else do st <- zget (gStates g) (rState r); Some (setNTypes n (sTypes st)));
      do stack <- (if same then Some (n :: rest)
                   else do nt <- zget (gNodes g) (rNode r);
                        do st <- zget (gStates g) (gnFirst nt);
                        Some (mkNodeRec [] [] (sTypes st) (rNode r) (gnFirst nt) :: n :: rest));
      Some (consumed, match stack with n :: _ => if nState n =? FinalState then dryPop stack else stack | [] => stack end)
  end.

(** State of resolveConflict: the branches (a pointer is an index here), nextBranches,
    the queue, lastSuccess and lastError. *)
Record look := mkLook {
  kStore : list branch; kNext : list nat; kQueue : list nat; kSuccess : option nat; kError : option nat
}.

(** parser.go:925-937, misc.go:96-98 *)
Definition lookApply (t : option Tok) (b : nat) (r : rule) (k : look) : option look :=
  do br <- nth_error (kStore k) b;
  do (consumed, stack) <- dryRule t r (bStack br);
  let store := upd (kStore k) b (mkBranch stack (bRules br ++ [r])) in
  Some (if match stack with [] => true | _ => false end || (consumed : bool) then
          if consumed then mkLook store (kNext k ++ [b]) (kQueue k) (kSuccess k) (kError k)
          else mkLook store (kNext k) (kQueue k) (Some b) (kError k)
        else mkLook store (kNext k) (kQueue k ++ [b]) (kSuccess k) (kError k)).

(** parser.go:963-965, misc.go:82-94: the copies are made first *)
Fixpoint lookSplit (t : option Tok) (ids : list nat) (rs : list rule) (k : look) : option look :=
  match ids, rs with
  | b :: ids', r :: rs' => do k <- lookApply t b r k; lookSplit t ids' rs' k
  | _, _ => Some k
  end.

(** parser.go:948-967; outer [None] = out of fuel, inner [None] = panic *)
Fixpoint lookBranch (fuel : nat) (t : option Tok) (k : look) : option (option look) :=
  match fuel with
  | O => None
  | S f =>
      match kQueue k with
      | [] => Some (Some k)
      | b :: q =>
          let k := mkLook (kStore k) (kNext k) q (kSuccess k) (kError k) in
          match nth_error (kStore k) b with
          | None => Some None
          | Some br =>
              match bStack br with
              | [] => lookBranch f t (mkLook (kStore k) (kNext k) (kQueue k) (Some b) (kError k))
              | n :: _ =>
                  match (do st <- zget (gStates g) (nState n); findRules ttype ttext toUpper g t st) with
                  | None => Some None
                  | Some [] => lookBranch f t (mkLook (kStore k) (kNext k) (kQueue k) (kSuccess k) (Some b))
                  | Some rs =>
                      let l := length (kStore k) in
                      let copies := repeat br (length rs - 1) in
                      let ids := b :: seq l (length rs - 1) in
                      match lookSplit t ids rs (mkLook (kStore k ++ copies) (kNext k) (kQueue k) (kSuccess k) (kError k)) with
                      | None => Some None
                      | Some k => lookBranch f t k
                      end
                  end
              end
          end
      end
  end.

(** parser.go:945-968.  [branches] and [nextBranches] share their array: item [i] of
    branches is the item [i] of nextBranches if there already is one.  The flag tells that it has
    happened. *)
Fixpoint lookRound (fuel : nat) (t : option Tok) (i : nat) (branches : list nat) (k : look) (lost : bool) : option (option (look * bool)) :=
  match branches with
  | [] => Some (Some (k, lost))
  | b0 :: rest =>
      let (b, lost) := match nth_error (kNext k) i with Some b => (b, true) | None => (b0, lost) end in
      match lookBranch fuel t (mkLook (kStore k) (kNext k) [b] (kSuccess k) (kError k)) with
      | None => None
      | Some None => Some None
      | Some (Some k) => lookRound fuel t (S i) rest k lost
      end
  end.

(** parser.go:974-979 *)
Fixpoint lookTypes (store : list branch) (ids : list nat) : Z :=
  match ids with
  | [] => 0
  | b :: r =>
      Z.lor (match nth_error store b with Some br => match bStack br with n :: _ => nTypes n | [] => 0 end | None => 0 end)
            (lookTypes store r)
  end.

(** parser.go:939-1001; the result is the tokens and the rules *)
Fixpoint lookLoop (fuel : nat) (t : option Tok) (tokens : list (option Tok)) (k : look) (s : pstate) : res (list (option Tok) * list rule) :=
  match fuel with
  | O => NoFuel s
  | S f =>
      match lookRound fuel t 0 (kNext k) (mkLook (kStore k) [] [] None (kError k)) (pLost s) with
      | None => NoFuel s
      | Some None => Panic
      | Some (Some (k, lost)) =>
          let s := setLost s lost in
          let tokens := tokens ++ [t] in
          let finish s :=
            match match kNext k with b :: _ => Some b | [] => match kSuccess k with Some b => Some b | None => kError k end end with
            | None => Panic
            | Some b => match nth_error (kStore k) b with Some br => Done (tokens, bRules br) s | None => Panic end
            end in
          if (length (kNext k) <=? 1)%nat then finish s
          else
            let types := lookTypes (kStore k) (kNext k) in
            if types =? 0 then finish s
            else match nextToken fuel types s with
                 | Done t s => lookLoop f t tokens k s
                 | Fail _ s => finish s
                 | Panic => Panic
                 | NoFuel s => NoFuel s
                 end
      end
  end.

(** parser.go:917-923, misc.go:69-80 *)
Definition resolveConflict (fuel : nat) (t : option Tok) (s : pstate) : res (list (option Tok) * list rule) :=
  match pStack s with
  | [] => Panic
  | n :: _ =>
      lookLoop fuel t [] (mkLook [mkBranch [mkNodeRec [] [] (nTypes n) (nIndex n) (nState n)] []] [0%nat] [] None None) s
  end.

(** parser.go:726-751; inner [None] = not found *)
Definition nextRule (fuel : nat) (t : option Tok) (st : state) (s : pstate) : res (option rule) :=
  match pApplied s with
  | r :: rest => Done (Some r) (setApplied s rest)
  | [] =>
      match findRules ttype ttext toUpper g t st with
      | None => Panic
      | Some [] => Done None s
      | Some [r] => Done (Some r) s
      | Some _ =>
          let! (x, s) := resolveConflict fuel t s in
          let (tokens, rules) := x in
          match rules with
          | [] => Panic
          | r :: rest => Done (Some r) (setApplied (setTokens s (tl tokens ++ pTokens s)) rest)
          end
      end
  end.

(** ** The parser *)

(** parser.go:889-915 with hooks; true = the token has been used *)
Definition applyRule (t : option Tok) (r : rule) (s : pstate) : res bool :=
  match pStack s with
  | [] => Panic
  | n :: _ =>
      let same := rNode r =? SameNode in
      let consumed := (same && negb (rToken r =? AnyToken)) || match t with None => true | Some _ => false end in
      match (if rState r =? repeatState then Some n
             else let n := setNState n (rState r) in
                  if rState r =? FinalState then Some n
                  else do st <- zget (gStates g) (rState r); Some (setNTypes n (sTypes st))) with
      | None => Panic
      | Some n =>
          let s := setTop s n in
          let! (_, s) := (if negb same then pushNode (rNode r) t s
                          else if consumed then handleNodeToken t s else Done tt s) in
          let! (_, s) := (match pStack s with
                          | n :: _ => if nState n =? FinalState then popNode s else Done tt s
                          | [] => Panic
                          end) in
          Done consumed s
      end
  end.

(** parser.go:554-570; [None] = index out of range *)
Definition getExpectedToken (st : state) : option gtoken :=
  do index <- (if sLow st <? sHigh st then
                 do r <- zget (gRules g) (sLow st);
                 if (rToken r <? 0) && (sLow st + 1 <? sHigh st)
                 then do r <- zget (gRules g) (sLow st + 1); Some (rToken r)
                 else Some (rToken r)
               else Some 0);
  do index <- (if sLowMulti st <? sHighMulti st then
                 do m <- zget (gMultiRules g) (sLowMulti st);
                 Some (if mToken m <? index then mToken m else index)
               else Some index);
  zget (gTokens g) index.
(** parser.go:571-575: the text for it *)
Definition expectedText (d : gtoken) : list Z := if hasFlag (gtFlags d) LiteralToken then gtName d else 36 :: gtName d.

(** parser.go:499-511: no rule found *)
Definition syntaxError (fuel : nat) (t : option Tok) (st : state) (s : pstate) : res (bool * option Tok) :=
  let! (t, s) := match t with Some _ => Done t s | None => nextToken fuel AllTokenTypes s end in
  match getExpectedToken st, t with
  | None, _ => Panic
  | _, None => Panic
  | Some d, Some t => Fail (if ttype t =? EoiTokenType then UnexpectedEoi t (expectedText d) else UnexpectedToken t (expectedText d)) s
  end.

(** parser.go:483-521: both loops in one; [used]: the token has been used up (or there is
    none yet; it is false at first in the code, which makes no difference as the stack is not
    empty then).  The result is that flag and the last token. *)
Fixpoint parseLoop (fuel : nat) (used : bool) (t : option Tok) (s : pstate) : res (bool * option Tok) :=
  match fuel with
  | O => NoFuel s
  | S f =>
      match pStack s with
      | [] => Done (used, t) s
      | n :: _ =>
          if used then
            let! (_, s) := checkCtx s in
            let! (t, s) := nextToken f (nTypes n) s in
            parseLoop f false t (log (EvNext t) s)
          else
            match zget (gStates g) (nState n) with
            | None => Panic
            | Some st =>
                let! (r, s) := nextRule f t st s in
                match r with
                | None => syntaxError f t st s
                | Some r => let! (used, s) := applyRule t r s in parseLoop f used t s
                end
            end
      end
  end.

(** parser.go:534-548 *)
Fixpoint restLoop (fuel : nat) (s : pstate) : res unit :=
  match fuel with
  | O => NoFuel s
  | S f =>
      let! (t, s) := nextToken f AllTokenTypes s in
      match t with
      | None => Panic
      | Some t =>
          let s := log (EvRest t) s in
          if ttype t =? EoiTokenType then Done tt s
          else if isSideType g (ttype t) then restLoop f s
          else Fail (RemainingSource t) s
      end
  end.

(** parser.go:475-552 *)
Definition parse (fuel : nat) (s : pstate) : res (option R) :=
  let! (x, s) := parseLoop fuel true None s in
  let (used, t) := x in
  match
    (if used then Some s
     else match t with
          | None => None
          | Some t => Some (if ttype t =? EoiTokenType then s
                            else setWorld s (unread t (fst (pWorld s)), snd (pWorld s)))
          end)
  with
  | None => Panic
  | Some s =>
      let! (_, s) := (if fullSource && match t with None => true | Some t => negb (ttype t =? EoiTokenType) end
                      then restLoop fuel s else Done tt s) in
      Done (pLast s) s
  end.

(** parser.go:240-285: the state before parse; [t0] is the token given to the root hooks *)
Definition start (w : world) (t0 : Tok) : res unit :=
  pushNode RootNode (Some t0) (mkP w [] (repeat [] (length tokenHooks)) [] None [] [] false).
(** parser.go:159-170 *)
Definition parseFrom (fuel : nat) (w : world) (t0 : Tok) : res (option R) :=
  let! (_, s) := start w t0 in parse fuel s.

End Parser.
Arguments Done {Tok Src W E Inst R A}.
Arguments Fail {Tok Src W E Inst R A}.
Arguments Panic {Tok Src W E Inst R A}.
Arguments NoFuel {Tok Src W E Inst R A}.
Arguments config : clear implicits.
Arguments event : clear implicits.
Arguments pstate : clear implicits.
Arguments res : clear implicits.
Arguments err : clear implicits.
Arguments nodeRec : clear implicits.
Arguments branch : clear implicits.
Arguments methods : clear implicits.
Arguments prog : clear implicits.
Arguments world : clear implicits.
Notation "'let!' ( x , s ) := m 'in' k" := (bind m (fun x s => k)) (at level 200, x pattern, s name, m at level 100, k at level 200, right associativity).
