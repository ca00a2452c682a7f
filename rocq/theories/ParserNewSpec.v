(** Specification: how lexers of a parser split texts into tokens. *)
From Coq Require Import String ZArith List Bool.
From Verif Require Import Base Utf8 Grammar SourceQueue SourceQueueSpec Lexer LexerSpec ParserNew.
Import ListNotations.
Open Scope Z_scope.

Section S.
(** the length of the preferred match of a regular expression at the start of a text *)
Variable prefers : name -> list Z -> option Z.
(** what package regexp promises *)
Definition regexpsOk : Prop := forall re text n, prefers re text = Some n -> 0 <= n <= zlen text.
Variable tokens : list gtoken.
(** types of the group that lexers find *)
Definition inGroup (k i : Z) (d : gtoken) : Prop := zget tokens i = Some d /\ gtRe d <> [] /\ gtGroup d = k.
(** the first type, in the order of definitions, that can match at the start of the text *)
Record firstType (k : Z) (text : list Z) (i : Z) (d : gtoken) (n : Z) : Prop := mkFirst {
  ft_type : inGroup k i d;
  ft_match : prefers (gtRe d) text = Some n;
  ft_first : forall j d', j < i -> inGroup k j d' -> prefers (gtRe d') text = None
}.
(** no type can *)
Definition noType (k : Z) (text : list Z) : Prop := forall i d, inGroup k i d -> prefers (gtRe d) text = None.
(** the whole text is split into tokens: types and texts; only types less than 64 are known to lexers *)
Inductive splitInto (k : Z) : list Z -> list (Z * list Z) -> Prop :=
| SI_end : splitInto k [] []
| SI_token text i d n l : firstType k text i d n -> 0 < n -> i < 64 -> splitInto k (skipn (Z.to_nat n) text) l ->
    splitInto k text ((i, firstn (Z.to_nat n) text) :: l).
End S.

(** ** Histories: calls of lexers of a parser mixed with operations of the queue *)
Section H.
Context {S : Type} (content : S -> list Z).
Inductive plop := PQueue (o : sqop S) | PNextOf (k tts : Z).
Definition pl_step (ls : list plexer) (st : @squeue S * list snapshot) (o : plop) : option ((@squeue S * list snapshot) * lout S) :=
  match o with
  | PQueue o => do (st', r) <- sq_step (slen content) st o; Some (st', LQ r)
  | PNextOf k tts => do l <- zget ls k;
      do (q', r) <- lexNextOf content (plRe l) (plLexer l) (fst st) tts; Some ((q', snd st), LTok (Some tts) (seen (fst st)) r (seen q'))
  end.
Fixpoint pl_run (ls : list plexer) st (ops : list plop) :=
  match ops with
  | [] => Some (st, [])
  | o :: r => do (st1, a) <- pl_step ls st o; do (st2, b) <- pl_run ls st1 r; Some (st2, (o, a) :: b)
  end.
(** sources ever added: bounds the length of the queue *)
Fixpoint padded (ops : list plop) : nat :=
  match ops with
  | [] => 0
  | PQueue (SqAppend _) :: r | PQueue (SqPrepend _) :: r => 1 + padded r
  | _ :: r => padded r
  end.
Definition usable (count : Z) (o : plop) : Prop := match o with PQueue _ => True | PNextOf k tts => 0 <= k < count /\ 0 <= tts end.

Variable prefers : name -> list Z -> option Z.
Variable tokens : list gtoken.
Definition rest (s : S) (p : Z) : list Z := skipn (Z.to_nat p) (content s).
(** some of the wanted types are known to lexers of the group *)
Definition someWanted (k tts : Z) : Prop := exists i d, inGroup tokens k i d /\ i < 64 /\ Z.testbit tts i = true.
(** What one call gives: current source and position before, result, current source and position after *)
Inductive called (k tts : Z) : option S * Z -> @lexResult S -> option S * Z -> Prop :=
| C_unknown at_ : ~ someWanted k tts -> called k tts at_ (None, None) at_
| C_eoi : someWanted k tts -> called k tts (None, 0) (Some eoiToken, None) (None, 0)
| C_eof s after : someWanted k tts -> called k tts (Some s, zlen (content s)) (Some (eofToken content s), None) after
| C_token s p i d n : 0 <= p < zlen (content s) -> firstType prefers tokens k (rest s p) i d n -> 0 < n -> i < 64 -> Z.testbit tts i = true ->
    called k tts (Some s, p) (Some (mkToken i (nameText (gtName d)) (firstn (Z.to_nat n) (rest s p)) (Some s) p), None) (Some s, p + n)
| C_unwanted s p i d n : someWanted k tts -> 0 <= p < zlen (content s) -> firstType prefers tokens k (rest s p) i d n -> 0 < n -> i < 64 -> Z.testbit tts i = false ->
    called k tts (Some s, p) (None, None) (Some s, p)
| C_bad s p i d n : someWanted k tts -> 0 <= p < zlen (content s) -> firstType prefers tokens k (rest s p) i d n -> 0 < n -> 64 <= i ->
    called k tts (Some s, p)
      (None, Some (BadToken (mkToken ErrorTokenType (nameText (gtName d)) (firstn (Z.to_nat n) (rest s p)) (Some s) p))) (Some s, p)
| C_wrong s p : someWanted k tts -> 0 <= p < zlen (content s) ->
    noType prefers tokens k (rest s p) \/ (exists i d, firstType prefers tokens k (rest s p) i d 0) ->
    called k tts (Some s, p) (None, Some (WrongChar s p (fst (decodeRune (rest s p))))) (Some s, p).
Definition outcomeOk (x : plop * lout S) : Prop :=
  match x with
  | (PNextOf k tts, LTok _ before r after) => called k tts before r after
  | (PQueue _, LQ _) => True
  | _ => False
  end.
(** the tokens of a split text, the first one at the offset [p]; results of calls *)
Fixpoint tokensAt (s : S) (p : Z) (l : list (Z * list Z)) : list (token S) :=
  match l with
  | [] => []
  | (i, text) :: r => mkToken i (match zget tokens i with Some d => nameText (gtName d) | None => EmptyString end) text (Some s) p :: tokensAt s (p + zlen text) r
  end.
Fixpoint resultsOf (outs : list (plop * lout S)) : list (@lexResult S) :=
  match outs with
  | [] => []
  | (_, LTok _ _ r _) :: rest => r :: resultsOf rest
  | (_, LQ _) :: rest => resultsOf rest
  end.
End H.
Arguments plop S : clear implicits.
