(** Model of /repo/cmd/llxgen/llxgen.go, lines 90-232: translation of a grammar to Go.
    - Texts are lists of bytes; the buffer is the list of its bytes.
    - [fmt] verbs %s, %d, %q are the documented behaviour of the standard library ([strconv.Quote] for %q); [strconv.IsPrint] is a parameter.
    - The name of the directory of the output file (lines 91-99) is an argument; work with files, flags and JSON is not modelled.
    - [None] is a panic. *)
From Coq Require Import String ZArith List Bool.
From Verif Require Import Base Utf8 Grammar LangString.
From Verif Require LangText.
Import ListNotations.
Local Open Scope string_scope.
Local Open Scope list_scope.
Open Scope Z_scope.
Notation bytes := LangText.bytes.

(** ** fmt *)
(** %d; integers have at most 20 digits *)
Fixpoint digits (fuel : nat) (n : Z) : list Z :=
  match fuel with
  | O => []
  | S f => if n <? 10 then [48 + n] else digits f (n / 10) ++ [48 + n mod 10]
  end.
Definition dec (n : Z) : list Z := if n <? 0 then 45 :: digits 20 (- n) else digits 20 n.
(** lower case hexadecimal digits, [k] of them *)
Definition hexChar (d : Z) : Z := if d <? 10 then 48 + d else 87 + d.
Fixpoint hex (k : nat) (n : Z) : list Z :=
  match k with
  | O => []
  | S k => hex k (n / 16) ++ [hexChar (n mod 16)]
  end.
Section Gen.
Variable isPrint : Z -> bool.
(** strconv/quote.go: appendEscapedRune *)
Definition quoteRune (r : Z) : list Z :=
  if (r =? 34) || (r =? 92) then [92; r]
  else if isPrint r then encodeRune r
  else if r =? 7 then bytes "\a"
  else if r =? 8 then bytes "\b"
  else if r =? 12 then bytes "\f"
  else if r =? 10 then bytes "\n"
  else if r =? 13 then bytes "\r"
  else if r =? 9 then bytes "\t"
  else if r =? 11 then bytes "\v"
  else if (r <? 32) || (r =? 127) then bytes "\x" ++ hex 2 r
  else if r <? 65536 then bytes "\u" ++ hex 4 r
  else bytes "\U" ++ hex 8 r.
(** strconv/quote.go: appendQuotedWith *)
Fixpoint quoteBody (fuel : nat) (s : list Z) : list Z :=
  match fuel, s with
  | _, [] | O, _ => []
  | S f, b :: _ =>
      let (r, w) := decodeRune s in
      (if (w =? 1) && (r =? RuneError) then bytes "\x" ++ hex 2 b else quoteRune r) ++ quoteBody f (skipn (Z.to_nat w) s)
  end.
(** %q *)
Definition quote (s : list Z) : list Z := 34 :: quoteBody (length s) s ++ [34].

(** ** makeGo *)
Definition nl : list Z := [10].
Definition tab : list Z := [9].
(** llxgen.go:104: the regular expression *)
Definition identByte (b : Z) : bool := between 65 90 b || between 97 122 b || (b =? 95) || between 48 57 b.
Definition isIdent (s : list Z) : bool :=
  match s with
  | [] => false
  | b :: _ => negb (between 48 57 b) && forallb identByte s
  end.
(** llxgen.go:120-122 *)
Definition tokenLine (t : gtoken) : list Z :=
  tab ++ tab ++ bytes "{Name: " ++ quote (gtName t) ++ bytes ", Re: " ++ quote (gtRe t) ++ bytes ", Group: " ++ dec (gtGroup t) ++ bytes ", Flags: " ++ dec (gtFlags t) ++ bytes "}," ++ nl.
(** llxgen.go:134-143 *)
Definition commandLine (c : gcommand) : list Z :=
  tab ++ tab ++ tab ++ bytes "{Command: " ++ quote (gcName c) ++
  (match gcArgs c with
   | [] => []
   | a :: r => bytes ", Arguments: []string{" ++ quote a ++ concat (map (fun a => bytes ", " ++ quote a) r)
   end) ++ bytes "}," ++ nl.
(** llxgen.go:128-146 *)
Definition layerLines (l : glayer) : list Z :=
  tab ++ tab ++ bytes "{Type: " ++ quote (glType l) ++
  match glCommands l with
  | [] => bytes "}," ++ nl
  | cs => bytes ", Commands: []grammar.LayerCommand{" ++ nl ++ concat (map commandLine cs) ++ tab ++ tab ++ bytes "}}," ++ nl
  end.
(** llxgen.go:152-154 *)
Definition nodeLine (n : gnode) : list Z :=
  tab ++ tab ++ bytes "{Name: " ++ quote (gnName n) ++ bytes ", FirstState: " ++ dec (gnFirst n) ++ bytes "}," ++ nl.
(** llxgen.go:160-170; [next] is nextIndex, [item] is nextItem *)
Fixpoint stateLines (nodes : list gnode) (i : Z) (sts : list state) (next item : Z) : option (list Z) :=
  match sts with
  | [] => Some []
  | st :: r =>
      let line := tab ++ tab ++ bytes "{" ++ dec (sTypes st) ++ bytes ", " ++ dec (sLowMulti st) ++ bytes ", " ++ dec (sHighMulti st) ++ bytes ", " ++ dec (sLow st) ++ bytes ", " ++ dec (sHigh st) ++ bytes "}," in
      if i =? next then
        do n <- zget nodes item ;
        let item := item + 1 in
        do next <- (if item <? zlen nodes then do m <- zget nodes item ; Some (gnFirst m) else Some next) ;
        do rest <- stateLines nodes (i + 1) r next item ;
        Some (line ++ bytes " // " ++ gnName n ++ bytes "(" ++ dec i ++ bytes ")" ++ nl ++ rest)
      else
        do rest <- stateLines nodes (i + 1) r next item ;
        Some (line ++ nl ++ rest)
  end.
(** llxgen.go:208-217: [i] is the index of the first of states *)
Fixpoint findMulti (i : Z) (sts : list state) : Z * Z :=
  match sts with
  | [] => (0, 0)
  | st :: r => if negb (sHighMulti st =? 0) then (sLowMulti st, i) else findMulti (i + 1) r
  end.
Definition findMultiRuleState (gr : grammar) (from : Z) : Z * Z := findMulti from (skipn (Z.to_nat from) (gStates gr)).
(** llxgen.go:219-232 *)
Fixpoint findRule (multis : list multiRule) (i : Z) (sts : list state) : option (Z * Z) :=
  match sts with
  | [] => Some (0, 0)
  | st :: r =>
      if negb (sHigh st =? 0) then
        if negb (sHighMulti st =? 0) then
          do m <- zget multis (sLowMulti st) ;
          Some (if mLow m <? sLow st then mLow m else sLow st, i)
        else Some (sLow st, i)
      else findRule multis (i + 1) r
  end.
Definition findRuleState (gr : grammar) (from : Z) : option (Z * Z) := findRule (gMultiRules gr) from (skipn (Z.to_nat from) (gStates gr)).
(** llxgen.go:177, 192 *)
Definition triple (a b c : Z) : list Z := nl ++ tab ++ tab ++ bytes "{" ++ dec a ++ bytes ", " ++ dec b ++ bytes ", " ++ dec c ++ bytes "},".
Definition mark (item i : Z) : list Z := bytes " // " ++ dec item ++ bytes "(" ++ dec i ++ bytes ")".
(** llxgen.go:176-182 *)
Fixpoint multiLines (gr : grammar) (i : Z) (ms : list multiRule) (ni : Z * Z) : list Z :=
  match ms with
  | [] => []
  | m :: r =>
      triple (mToken m) (mLow m) (mHigh m) ++
      if i =? fst ni then mark (snd ni) i ++ multiLines gr (i + 1) r (findMultiRuleState gr (snd ni + 1)) else multiLines gr (i + 1) r ni
  end.
(** llxgen.go:191-197 *)
Fixpoint ruleLines (gr : grammar) (i : Z) (rs : list rule) (ni : Z * Z) : option (list Z) :=
  match rs with
  | [] => Some []
  | x :: r =>
      if i =? fst ni then
        do ni' <- findRuleState gr (snd ni + 1) ;
        do rest <- ruleLines gr (i + 1) r ni' ;
        Some (triple (rToken x) (rState x) (rNode x) ++ mark (snd ni) i ++ rest)
      else
        do rest <- ruleLines gr (i + 1) r ni ;
        Some (triple (rToken x) (rState x) (rNode x) ++ rest)
  end.

Inductive genError := BadPackage | BadVariable.
(** llxgen.go:100-117: the first lines; [pkg] and [var] are values of flags *)
Definition header (pkg var : list Z) : list Z :=
  bytes "// Code generated with llxgen." ++ nl ++ nl ++ bytes "package " ++ pkg ++ nl ++ nl ++
  bytes "import ""github.com/ava12/llx/grammar""" ++ nl ++ nl ++ bytes "var " ++ var ++ bytes " = &grammar.Grammar{" ++ nl.
(** llxgen.go:119-205 *)
Definition body (gr : grammar) : option (list Z) :=
  let tokens := tab ++ bytes "Tokens: []grammar.Token{" ++ nl ++ concat (map tokenLine (gTokens gr)) ++ tab ++ bytes "}," ++ nl in
  let layers := match gLayers gr with
                | [] => []
                | ls => tab ++ bytes "Layers: []grammar.Layer{" ++ nl ++ bytes "}" ++ concat (map layerLines ls) ++ tab ++ bytes "}," ++ nl
                end in
  let nodes := tab ++ bytes "Nodes: []grammar.Node{" ++ nl ++ concat (map nodeLine (gNodes gr)) ++ tab ++ bytes "}," ++ nl in
  do sts <- stateLines (gNodes gr) 0 (gStates gr) 0 0 ;
  let states := tab ++ bytes "States: []grammar.State{" ++ nl ++ sts ++ tab ++ bytes "}," ++ nl in
  let multis := tab ++ bytes "MultiRules: []grammar.MultiRule{" ++
                match gMultiRules gr with
                | [] => bytes "}," ++ nl
                | ms => multiLines gr 0 ms (findMultiRuleState gr 0) ++ nl ++ tab ++ bytes "}," ++ nl
                end in
  do rs <- (match gRules gr with
            | [] => Some (bytes "}," ++ nl)
            | rs => do ni <- findRuleState gr 0 ; do l <- ruleLines gr 0 rs ni ; Some (l ++ nl ++ tab ++ bytes "}," ++ nl)
            end) ;
  let rules := tab ++ bytes "Rules: []grammar.Rule{" ++ rs in
  Some (tokens ++ layers ++ nodes ++ states ++ multis ++ rules ++ bytes "}" ++ nl).
(** llxgen.go:90-206; [dir] is the name of the directory of the output file *)
Definition makeGo (dir pkg var : list Z) (gr : grammar) : option (list Z + genError) :=
  let pkg := match pkg with [] => dir | _ => pkg end in
  do var <- (match var with [] => do n <- zget (gNodes gr) 0 ; Some (gnName n) | _ => Some var end) ;
  if negb (isIdent pkg) then Some (inr BadPackage)
  else if negb (isIdent var) then Some (inr BadVariable)
  else do b <- body gr ; Some (inl (header pkg var ++ b)).
End Gen.
