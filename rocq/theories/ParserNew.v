(** Model of parser.New as far as lexers are concerned: /repo/parser/parser.go, lines 44-100 (tables of names and hook layers are in
    Layers.v).  Group indexes out of range are panics ([None]). *)
From Coq Require Import String Ascii ZArith List Bool.
From Verif Require Import Base Grammar Lexer.
Import ListNotations.
Open Scope Z_scope.

(** a string made of the bytes of a name *)
Fixpoint nameText (n : name) : string :=
  match n with [] => EmptyString | b :: r => String (ascii_of_N (Z.to_N b)) (nameText r) end.

(** parser.go:50-58: maxGroup *)
Fixpoint maxGroup (ts : list gtoken) (m : Z) : Z :=
  match ts with
  | [] => m
  | t :: r => maxGroup r (if hasFlag (gtFlags t) LiteralToken then m else if m <? gtGroup t then gtGroup t else m)
  end.
(** parser.go:60-64 *)
Record lexerRec := mkRec { lrPatterns : list name; lrTypes : list (Z * string) }.
(** parser.go:75-90 without names: patterns and types of groups; the parentheses of a pattern are in [joined] *)
Fixpoint fillRecs (i : Z) (ts : list gtoken) (lrs : list lexerRec) : option (list lexerRec) :=
  match ts with
  | [] => Some lrs
  | t :: r =>
      match gtRe t with
      | [] => fillRecs (i + 1) r lrs
      | _ => do lr <- zget lrs (gtGroup t);
             do lrs' <- zset lrs (gtGroup t) (mkRec (lrPatterns lr ++ [gtRe t]) (lrTypes lr ++ [(i, nameText (gtName t))]));
             fillRecs (i + 1) r lrs'
      end
  end.

Section New.
(** The length of the match regexp prefers for "^(?s:re)" and a text ([None]: no match) *)
Variable prefers : name -> list Z -> option Z.
(** whether regexp.Compile accepts "^(?s:(re)|(re)...)" *)
Variable compilesAll : list name -> bool.
(** The first of alternatives that matches: its number and the length of the match *)
Fixpoint firstMatch (k : nat) (patterns : list name) (text : list Z) : option (nat * Z) :=
  match patterns with
  | [] => None
  | re :: r => match prefers re text with Some n => Some (k, n) | None => firstMatch (S k) r text end
  end.
(** the offsets of a match of the alternative number [k], [n] bytes long; other groups have captured nothing *)
Fixpoint captures (count k : nat) (n : Z) : list Z :=
  match count, k with
  | O, _ => []
  | S c, O => 0 :: n :: repeat (-1) (c + c)
  | S c, S k => -1 :: -1 :: captures c k n
  end.
(** parser.go:83, 94: FindSubmatchIndex of "^(?s:" + "(re)" joined by "|" + ")".  Regular expressions are without capturing groups, as
    langdef/docs.go:95 demands.  See [findAtStart_joined] for a proof that it is what leftmost-first matching gives. *)
Definition joined (patterns : list name) (text : list Z) : list Z :=
  match patterns with
  | [] => [0; 0]
  | _ => match firstMatch 0 patterns text with
         | None => []
         | Some (k, n) => 0 :: n :: captures (List.length patterns) k n
         end
  end.
(** a lexer and its regexp *)
Record plexer := mkPlexer { plTypes : list (Z * string); plRe : list Z -> list Z }.
Definition plLexer (l : plexer) : lexer := newLexer (plTypes l).
Definition recLexer (r : lexerRec) : plexer := mkPlexer (lrTypes r) (joined (lrPatterns r)).
(** parser.go:92-100; [None]: an error of regexp.Compile *)
Fixpoint newLexers (lrs : list lexerRec) : option (list plexer) :=
  match lrs with
  | [] => Some []
  | r :: rest => if compilesAll (lrPatterns r) then match newLexers rest with Some ls => Some (recLexer r :: ls) | None => None end else None
  end.
(** parser.go:44-100 *)
Inductive made := NewPanic | NewError | NewLexers (ls : list plexer).
Definition newParser (g : grammar) : made :=
  match fillRecs 0 (gTokens g) (repeat (mkRec [] []) (Z.to_nat (maxGroup (gTokens g) 0 + 1))) with
  | None => NewPanic
  | Some lrs => match newLexers lrs with None => NewError | Some ls => NewLexers ls end
  end.
End New.
