(** Model of /repo/langdef/parser.go, lines 1055-1138: types of tokens a state asks lexers for.
    - [fullMatch re text] stands for [re.FindString(text) == text] where [re] is the regular expression of a token type
      ([regexp.MustCompile] does not fail: the expressions are compiled when their definitions are read), [toUpper] for
      [strings.ToUpper].
    - The map of compiled expressions is a list of indexes and tokens: the loop over it only sets bits. *)
From Coq Require Import ZArith List Bool.
From Verif Require Import Base Grammar LangBuild.
Import ListNotations.
Open Scope Z_scope.

(** [BitSet(1) << i], grammar.go:34-35: 64 bits *)
Definition bit (i : Z) : Z := if i <? 64 then Z.shiftl 1 i else 0.
Definition nameEqb (a b : name) : bool := if list_eq_dec Z.eq_dec a b then true else false.

Section T.
Variable fullMatch : name -> name -> bool.
Variable toUpper : name -> name.

(** parser.go:1068-1076, from the index [i]; returns [rcnt] (the index of the last token when the loop is not broken, 0
    when there are no tokens) and the map [res] *)
Fixpoint scanRe (i : Z) (ts : list gtoken) : Z * list (Z * gtoken) :=
  match ts with
  | [] => (if i =? 0 then 0 else i - 1, [])
  | t :: r =>
      match gtRe t with
      | [] => (i, [])
      | _ => let '(n, res) := scanRe (i + 1) r in
             (n, if hasFlag (gtFlags t) NoLiteralsToken then res else (i, t) :: res)
      end
  end.
(** parser.go:1079-1081: [rcnt] and the rest of the tokens *)
Fixpoint skipTypes (i : Z) (ts : list gtoken) : Z * list gtoken :=
  match ts with
  | t :: r => if hasFlag (gtFlags t) LiteralToken then (i, ts) else skipTypes (i + 1) r
  | [] => (i, [])
  end.
(** parser.go:1083-1085 *)
Definition ownTypes (rcnt : Z) : list Z := map (fun n => bit (Z.of_nat n)) (seq 0 (Z.to_nat rcnt)).
(** parser.go:1088-1094: the types of a literal; [None] is a panic at [rts[j]] *)
Fixpoint literalTypes (rts : list gtoken) (lit : name) (caseless : bool) (res : list (Z * gtoken)) (types : Z) : option Z :=
  match res with
  | [] => Some types
  | (j, re) :: r =>
      do rt <- zget rts j;
      literalTypes rts lit caseless r
        (if (negb (hasFlag (gtFlags rt) CaselessToken) || caseless) && fullMatch (gtRe re) lit then Z.lor types (bit j) else types)
  end.
(** parser.go:1087-1098; [inr] is the error *)
Fixpoint allLiteralTypes (rts : list gtoken) (res : list (Z * gtoken)) (lts : list gtoken) : option (list Z + name) :=
  match lts with
  | [] => Some (inl [])
  | lt :: r =>
      do types <- literalTypes rts (gtName lt) (nameEqb (gtName lt) (toUpper (gtName lt))) res 0;
      if types =? 0 then Some (inr (gtName lt))
      else do rest <- allLiteralTypes rts res r;
           Some (match rest with inl l => inl (types :: l) | inr n => inr n end)
  end.
(** parser.go:1055-1101 *)
Definition tokenTypes (ts : list gtoken) : option (list Z + name) :=
  let '(n, res) := scanRe 0 ts in
  do rts <- zslice ts 0 n;
  do rest <- zslice ts n (zlen ts);
  let '(rcnt, lts) := skipTypes n rest in
  do types <- allLiteralTypes rts res lts;
  Some (match types with inl l => inl (ownTypes rcnt ++ l) | inr e => inr e end).
End T.

(** parser.go:1108-1113, from the index [i] *)
Fixpoint sideTypes (i : Z) (ts : list gtoken) : Z :=
  match ts with
  | [] => 0
  | t :: r => Z.lor (if hasFlag (gtFlags t) SideToken then bit i else 0) (sideTypes (i + 1) r)
  end.
(** parser.go:1126-1131; the keys of [ePos] are the non-negative ones *)
Fixpoint keyTypes (ttypes : list Z) (keys : list Z) (types : Z) : option Z :=
  match keys with
  | [] => Some types
  | k :: r => do t <- zget ttypes k; keyTypes ttypes r (Z.lor types t)
  end.
(** parser.go:1124-1134: [n] states from [j] *)
Fixpoint typeStates (ttypes : list Z) (default : Z) (n : nat) (j : Z) (es : list entry) : option (list entry) :=
  match n with
  | O => Some es
  | S n' =>
      do e <- zget es j;
      do types <- keyTypes ttypes (map fst (ePos e)) default;
      do es' <- zset es j (mkEntry types (ePos e) (eNeg e));
      typeStates ttypes default n' (j + 1) es'
  end.
(** parser.go:1115-1135: [fs] are first states of the nodes *)
Fixpoint typeNodes (ttypes : list Z) (default : Z) (fs : list Z) (es : list entry) : option (list entry) :=
  match fs with
  | [] => Some es
  | f :: r =>
      let last := match r with [] => zlen es | f' :: _ => f' end in
      do es' <- typeStates ttypes default (Z.to_nat (last - f)) f es;
      typeNodes ttypes default r es'
  end.
(** parser.go:1103-1138 *)
Definition stateTypes (tokens : list gtoken) (ttypes : list Z) (fs : list Z) (es : list entry) : option (list entry) :=
  typeNodes ttypes (sideTypes 0 tokens) fs es.
