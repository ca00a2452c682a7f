(** Model of /repo/examples/style-check/internal/lib.go: the part of the style checker that collects reports, and
    the checks that look at tokens one after another.
    - Tokens of the tree are a list, side tokens too, in the order of the text: LastTokenElement, PrevTokenElement and NextTokenElement go
      along this order (C42, first_last_token and next_prev_token_partial of Prop_Tree.v; the trouble with empty nodes shown there does not arise, since no
      nonterminal of grammar.llx:10-17 matches an empty text), a search over the whole tree gives tokens in this order.
      Comments are not in the list: handleToken (lib.go:158-165) drops them.
    - Lines and columns are natural numbers, texts are bytes (lib.go:374 goes by runes; texts of indents, grammar.llx:3, are one byte each).
    - totalReports (lib.go:58, 72) is left out: it is only a capacity.
    - Not modelled: parsing and handleToken (lib.go:113-165), checks which look at nodes (reportMultipleSpaces, reportTrailingSpaces, reportInconsistentStructAlign, reportLiteralStructs,
      and of reportIncorrectIndents all but the size of an indent); their reports are parameters. *)
From Coq Require Import List Bool String Ascii Arith ZArith.
From Verif Require Import Base.
Import ListNotations.
Open Scope string_scope.
Open Scope nat_scope.
Open Scope list_scope.

(** a token as the checks see it: TypeName, Text and LineCol, used in lib.go:75-78, 188-207, 298-345 *)
Record stok := STok { sType : string; sText : string; sLine : nat; sCol : nat }.
(** lib.go:51-54 *)
Definition place_report := (nat * nat * string)%type.

(** lib.go:56-59: the map of maps; keys are different *)
Definition lineMap := list (nat * string).
Definition reportMap := list (nat * lineMap).
(** lib.go:66, 89, 97: reading a map *)
Fixpoint nget {A} (k : nat) (m : list (nat * A)) : option A :=
  match m with [] => None | (k', v) :: r => if k' =? k then Some v else nget k r end.
(** lib.go:68, 70: writing into a map *)
Fixpoint nset {A} (k : nat) (v : A) (m : list (nat * A)) : list (nat * A) :=
  match m with [] => [(k, v)] | (k', v') :: r => if k' =? k then (k, v) :: r else (k', v') :: nset k v r end.
(** lib.go:65-73 *)
Definition report (rm : reportMap) (r : place_report) : reportMap :=
  let '(line, col, message) := r in
  match nget line rm with
  | None => nset line [(col, message)] rm
  | Some lm => nset line (nset col message lm) rm
  end.
(** lib.go:61-63, 168, 181-183: all the calls of report, in their order *)
Definition collect (calls : list place_report) : reportMap := fold_left report calls [].

Section Flatten.
(** the order of keys of a map, and sort.Ints *)
Variable shuffle : list nat -> list nat.
Variable sortInts : list nat -> list nat.
(** lib.go:80-102 *)
Definition flatten (rm : reportMap) : list place_report :=
  flat_map (fun line =>
    match nget line rm with
    | None => []
    | Some lm => flat_map (fun col => match nget col lm with Some m => [(line, col, m)] | None => [] end) (sortInts (shuffle (map fst lm)))
    end) (sortInts (shuffle (map fst rm))).
End Flatten.

(** lib.go:75-78 *)
Definition reportToken (t : stok) (message : string) : place_report := (sLine t, sCol t, message).

(** lib.go:188-195; [None] is a panic: no tokens *)
Definition noFinalNl (toks : list stok) : option (list place_report) :=
  match rev toks with
  | [] => None
  | lt :: _ => Some (if negb (String.eqb (sType lt) "indent") then [(sLine lt, sCol lt + String.length (sText lt), "no newline at file end")] else [])
  end.

(** lib.go:197-207 *)
Fixpoint hasTab (s : string) : bool := match s with EmptyString => false | String c r => Ascii.eqb c "009"%char || hasTab r end.
Definition tabs (toks : list stok) : list place_report :=
  map (fun t => reportToken t "no tabs allowed") (filter (fun t => hasTab (sText t)) (filter (fun t => String.eqb (sType t) "indent" || String.eqb (sType t) "space") toks)).

(** lib.go:302-307: the flags *)
Definition wrongTrail := 1%Z.
Definition wrongLead := 2%Z.
Definition gotTrail := 4%Z.
Definition gotLead := 8%Z.
(** lib.go:299, 335, 341 with texts of lib.go:43, 48 *)
Definition spaceMessage (got : bool) : string := if got then "excess space" else "missing space".
(** lib.go:313, 316 *)
Definition isSpace (o : option stok) : bool := match o with Some t => String.eqb (sType t) "space" | None => false end.
(** lib.go:310-343: one operator with its neighbours *)
Definition opReports (prev : option stok) (n : stok) (next : option stok) : list place_report :=
  let flags := 0%Z in
  let flags := if isSpace prev then Z.lor flags (Z.lor gotLead wrongLead) else flags in
  let flags := if isSpace next then Z.lor flags (Z.lor gotTrail wrongTrail) else flags in
  let text := sText n in
  let flags := if String.eqb text "[" || String.eqb text "]" || String.eqb text ";" then flags
               else if String.eqb text "," || String.eqb text "}" then Z.lxor flags wrongTrail
               else if String.eqb text "{" then Z.lxor flags wrongLead
               else flags in
  let has f := negb (Z.eqb (Z.land flags f) 0) in
  let tok1 := if has wrongLead then (if has gotLead then match prev with Some p => p | None => n end else n) else n in
  (if has wrongLead then [reportToken tok1 (spaceMessage (has gotLead) ++ " before " ++ text)%string] else []) ++
  (if has wrongTrail then [reportToken (match next with Some x => x | None => tok1 end) (spaceMessage (has gotTrail) ++ " after " ++ text)%string] else []).
(** lib.go:298-300, 309-311, 344-345: all operators *)
Fixpoint spacesFrom (prev : option stok) (toks : list stok) : list place_report :=
  match toks with
  | [] => []
  | t :: r => (if String.eqb (sType t) "op" then opReports prev t (hd_error r) else []) ++ spacesFrom (Some t) r
  end.
Definition incorrectSpaces (toks : list stok) : list place_report := spacesFrom None toks.

(** lib.go:167-186; the other checks are given by their reports; reports of all checks in the order of calls *)
Definition inspectCode (toks : list stok) (multiple align literals indents trailing : list place_report) : option (list place_report) :=
  do nl <- noFinalNl toks;
  Some (nl ++ multiple ++ incorrectSpaces toks ++ align ++ literals ++ indents ++ trailing ++ tabs toks).

(** lib.go:362-384: the size of the indent of the line where an item starts, given the tokens before it *)
Fixpoint sizeOf (s : string) (size : Z) : Z :=
  match s with
  | EmptyString => size
  | String c r => sizeOf r (if Ascii.eqb c "010"%char then size
                            else if Ascii.eqb c "009"%char then Z.land (size + 7) (-8) + 1
                            else size + 1)%Z
  end.
(** lib.go:363-372: back to the start of the line; [before] is the tokens before, the nearest first *)
Fixpoint indentBack (before : list stok) (first : bool) : Z * bool :=
  match before with
  | [] => (0%Z, first)
  | t :: r => if String.eqb (sType t) "indent" then (sizeOf (sText t) 0, first) else indentBack r false
  end.
Definition blockIndentSize (before : list stok) : Z * bool := indentBack (rev before) true.
