(** Model of the rule lookup in /repo/parser/parser.go. *)
From Coq Require Import ZArith List Bool.
From Verif Require Import Base Grammar.
Import ListNotations.
Open Scope Z_scope.

(** Go's sort.Search(n, f): the loop keeps i < j and halves their distance. *)
Fixpoint searchLoop (fuel : nat) (f : Z -> bool) (i j : Z) : Z :=
  match fuel with
  | O => i
  | S fu =>
      if i <? j then
        let h := (i + j) / 2 in
        if negb (f h) then searchLoop fu f (h + 1) j else searchLoop fu f i h
      else i
  end.
Definition sortSearch (n : Z) (f : Z -> bool) : Z := searchLoop (Z.to_nat n) f 0 n.

Section R.
Context {Tok : Type} (ttype : Tok -> Z) (ttext : Tok -> list Z) (toUpper : list Z -> list Z).
Variable g : grammar.

(** parser.go:70, 77-79: the map of literals; a later token with the same name wins. *)
Fixpoint nameEqb (a b : name) : bool :=
  match a, b with
  | [], [] => true
  | x :: a', y :: b' => (x =? y) && nameEqb a' b'
  | _, _ => false
  end.
Fixpoint literalsFrom (i : Z) (ts : list gtoken) (text : name) (found : option Z) : option Z :=
  match ts with
  | [] => found
  | t :: r => literalsFrom (i + 1) r text
                (if hasFlag (gtFlags t) LiteralToken && nameEqb (gtName t) text then Some i else found)
  end.
Definition literals (text : name) : option Z := literalsFrom 0 (gTokens g) text None.

(** parser.go:185-187 *)
Definition isSideType (tt : Z) : bool :=
  (0 <=? tt) && (tt <? zlen (gTokens g)) &&
  match zget (gTokens g) tt with Some d => hasFlag (gtFlags d) SideToken | None => false end.

(** parser.go:832-840 *)
Definition isSideToken (t : option Tok) : bool :=
  match t with None => false | Some t => isSideType (ttype t) end.

(** parser.go:614-649; [None] = no such token type (index out of range) *)
Definition possibleRuleKeys (t : option Tok) : option (list Z) :=
  match t with
  | None => Some [AnyToken]
  | Some t =>
      let tt := ttype t in
      do tf <- (if 0 <=? tt then do d <- zget (gTokens g) tt; Some (gtFlags d) else Some NoLiteralsToken);
      let lit := if hasFlag tf NoLiteralsToken then None
                 else literals (if hasFlag tf CaselessToken then toUpper (ttext t) else ttext t) in
      do byType <- match lit with
                   | None => Some true
                   | Some i => do d <- zget (gTokens g) i; Some (negb (hasFlag (gtFlags d) ReservedToken))
                   end;
      Some (match lit with None => [] | Some i => [i] end ++ (if (byType : bool) then [tt] else []) ++ [AnyToken])
  end.

(** parser.go:602-608 *)
Definition findMulti (multi : list multiRule) (key : Z) : option (option (list rule)) :=
  let i := sortSearch (zlen multi) (fun i => match zget multi i with Some m => key <=? mToken m | None => true end) in
  match zget multi i with
  | Some m => if mToken m =? key then do rs <- zslice (gRules g) (mLow m) (mHigh m); Some (Some rs) else Some None
  | None => Some None
  end.
(** parser.go:590-609: one round of the loop over the keys.  Inner [None] = nothing for
    this key; outer [None] = slice bounds out of range *)
Definition findKey (rules : list rule) (multi : list multiRule) (key : Z) : option (option (list rule)) :=
  if match rules with r0 :: _ => (key =? AnyToken) && (rToken r0 =? key) | [] => false end
  then Some (Some (firstn 1 rules)) else
  let i := sortSearch (zlen rules) (fun i => match zget rules i with Some r => key <=? rToken r | None => true end) in
  match zget rules i with
  | Some r => if rToken r =? key then Some (Some [r]) else findMulti multi key
  | None => findMulti multi key
  end.
Fixpoint findByKeys (rules : list rule) (multi : list multiRule) (keys : list Z) : option (list rule) :=
  match keys with
  | [] => Some []
  | key :: rest =>
      do f <- findKey rules multi key;
      match f with Some rs => Some rs | None => findByKeys rules multi rest end
  end.

(** parser.go:473 *)
Definition repeatState : Z := -128.

(** parser.go:578-612.  A slice of length zero stands for nil (callers only ask for the
    length). *)
Definition findRules (t : option Tok) (s : state) : option (list rule) :=
  if isSideToken t then
    match t with Some t => Some [mkRule (ttype t) repeatState SameNode] | None => Some [] end
  else
    do keys <- possibleRuleKeys t;
    do rules <- zslice (gRules g) (sLow s) (sHigh s);
    do multi <- zslice (gMultiRules g) (sLowMulti s) (sHighMulti s);
    findByKeys rules multi keys.
End R.
