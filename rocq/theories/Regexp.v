(** Regular expressions as Go's package regexp matches them (its documentation: leftmost-first, "the one that a backtracking
    engine would have found"; not code of /repo): the ways to match, in the order of preference.
    A text is bytes, taken by runes (an invalid byte is U+FFFD, one byte wide). *)
From Coq Require Import ZArith List Bool.
From Verif Require Import Base Utf8.
Import ListNotations.
Open Scope Z_scope.

(** a class of runes; nothing; a concatenation; "|"; "*" (or "*?"); the group with that index, from 0 *)
Inductive rx :=
| RClass (p : Z -> bool)
| RNone
| RCat (a b : rx)
| RAlt (a b : rx)
| RStar (greedy : bool) (a : rx)
| RGroup (k : nat) (a : rx).
(** What has been matched: the offset reached, the text left, the groups captured *)
Record reached := mkAt { rPos : Z; rLeft : list Z; rGroups : list (Z * Z) }.

Section Star.
Variable step : reached -> list reached.
Variable greedy : bool.
(** at most [n] times; an empty repetition is not tried *)
Fixpoint repeats (n : nat) (s : reached) : list reached :=
  let more := match n with O => [] | S m => flat_map (repeats m) (filter (fun s' => rPos s <? rPos s') (step s)) end in
  if greedy then more ++ [s] else s :: more.
End Star.
(** All the ways to match a prefix of the text left, the preferred first *)
Fixpoint ways (r : rx) (s : reached) : list reached :=
  match r with
  | RClass p =>
      match rLeft s with
      | [] => []
      | _ => let '(c, n) := decodeRune (rLeft s) in
             if p c then [mkAt (rPos s + n) (skipn (Z.to_nat n) (rLeft s)) (rGroups s)] else []
      end
  | RNone => [s]
  | RCat a b => flat_map (ways b) (ways a s)
  | RAlt a b => ways a s ++ ways b s
  | RStar greedy a => repeats (ways a) greedy (length (rLeft s)) s
  | RGroup k a => map (fun s' => mkAt (rPos s') (rLeft s') (upd (rGroups s') k (rPos s, rPos s'))) (ways a s)
  end.
(** FindSubmatchIndex of a regexp that starts with "^" and has [n] groups *)
Fixpoint offsets (gs : list (Z * Z)) : list Z := match gs with [] => [] | (a, b) :: r => a :: b :: offsets r end.
Definition findAtStart (r : rx) (n : nat) (text : list Z) : list Z :=
  match ways r (mkAt 0 text (repeat (-1, -1) n)) with
  | [] => []
  | s :: _ => 0 :: rPos s :: offsets (rGroups s)
  end.

(** "+", "?", "{0,n}", a rune; classes *)
Definition RPlus (a : rx) : rx := RCat a (RStar true a).
Definition ROpt (a : rx) : rx := RAlt a RNone.
Fixpoint RUpTo (n : nat) (a : rx) : rx := match n with O => RNone | S m => ROpt (RCat a (RUpTo m a)) end.
Definition oneOf (l : list Z) (c : Z) : bool := existsb (Z.eqb c) l.
Definition noneOf (l : list Z) (c : Z) : bool := negb (oneOf l c).
Definition RRune (c : Z) : rx := RClass (Z.eqb c).
(** "." without the flag "s" *)
Definition RDot : rx := RClass (noneOf [10]).
(** \s of RE2: [\t\n\f\r ] *)
Definition RSpace : rx := RClass (oneOf [9; 10; 12; 13; 32]).
Definition RAlts (l : list rx) (last : rx) : rx := fold_right RAlt last l.
