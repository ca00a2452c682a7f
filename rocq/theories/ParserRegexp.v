(** Regular expressions of token types as trees (Regexp.v): what the regexp made by parser.New finds, /repo/parser/parser.go:83, 94. *)
From Coq Require Import ZArith List Bool.
From Verif Require Import Base Utf8 Regexp Grammar.
Import ListNotations.
Open Scope Z_scope.

(** without capturing groups, as /repo/langdef/docs.go:95 demands *)
Fixpoint noGroups (r : rx) : bool :=
  match r with
  | RClass _ | RNone => true
  | RCat a b | RAlt a b => noGroups a && noGroups b
  | RStar _ a => noGroups a
  | RGroup _ _ => false
  end.
(** the length of the match preferred for "^(?s:r)" *)
Definition treePrefers (r : rx) (text : list Z) : option Z :=
  match ways r (mkAt 0 text []) with [] => None | s :: _ => Some (rPos s) end.
(** parser.go:83, 94: "(r)|(r)...", groups from [k] *)
Fixpoint alternatives (k : nat) (l : list rx) : rx :=
  match l with
  | [] => RNone
  | [r] => RGroup k r
  | r :: rest => RAlt (RGroup k r) (alternatives (S k) rest)
  end.
