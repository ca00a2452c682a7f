(** Specification: layers read texts of tokens, they do not write them. *)
From Coq Require Import ZArith List Bool.
From Verif Require Import Base Grammar LangTypes StdLayers Indent IndentMem.
From Verif Require Lexer.
Import ListNotations.
Open Scope Z_scope.

(** a slice is within its array *)
Definition inBounds (m : memory) (s : slice) : Prop := (slArr s < length m /\ slOff s + slLen s <= length (nth (slArr s) m []))%nat.
(** arrays are as they were; there may be new ones *)
Definition kept (m m' : memory) : Prop := exists new, m' = m ++ new.
Section S.
Context {Pos PE : Type}.
(** a token with its text, as memory is now *)
Definition view (m : memory) (t : mtok Pos) : ltok Pos := mkLTok (mType t) (mName t) (text m (mText t)) (mPos t).
Definition viewError (m : memory) (e : merror Pos PE) : indentError Pos PE := match e with MWrongToken t => WrongToken (view m t) | MPeekError e => PeekError e end.
Definition viewPeek (m : memory) (p : option (mtok Pos) * option PE) : option (ltok Pos) * option PE := (option_map (view m) (fst p), snd p).
Definition viewState (m : memory) (s : mstate Pos) : lstate Pos :=
  mkLs (map (text m) (msStack s)) (text m (msValid s)) (text m (msCurrent s)) (map (view m) (msSpaces s)) (msState s).
(** tokens of a text, one after another: each starts where the last one ends, or in another array if that one ends its array *)
Definition isTextual (t : mtok Pos) : bool := (0 <=? mType t) && (0 <? slLen (mText t))%nat.
Definition follows (m : memory) (a b : slice) : Prop :=
  (slArr b = slArr a /\ slOff b = slOff a + slLen a)%nat \/ (slOff a + slLen a = length (nth (slArr a) m []))%nat.
Fixpoint inOrder (m : memory) (last : option slice) (l : list (mtok Pos)) : Prop :=
  match l with
  | [] => True
  | t :: r => if isTextual t then match last with Some s => follows m s (mText t) | None => True end /\ inOrder m (Some (mText t)) r else inOrder m last r
  end.
(** what is peeked depends on arrays that exist, not on new ones *)
Definition steady (m : memory) (p : memory -> option (mtok Pos) * option PE) : Prop :=
  (forall m', kept m m' -> p m' = p m) /\ forall t, fst (p m) = Some t -> inBounds m (mText t).
End S.
(** lexers take some of the text and give types of the grammar *)
Definition lexOk (lex : name -> option (Z * name * nat)) : Prop := forall rest ty n len, lex rest = Some (ty, n, len) -> 0 <= ty /\ (0 < len <= length rest)%nat.
(** tokens a text is split into by a lexer: types and texts *)
Inductive words (lex : name -> option (Z * name * nat)) : name -> list (Z * name) -> Prop :=
| words_end : words lex [] []
| words_cons c ty n len l : c <> [] -> lex c = Some (ty, n, len) -> words lex (skipn len c) l -> words lex c ((ty, firstn len c) :: l).
