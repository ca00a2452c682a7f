(** Model of /repo/lexer/lexer.go and token.go.
    The regular expression is a parameter [re]: the function computed by
    regexp.FindSubmatchIndex on a byte slice, a list of offsets, [] for nil. *)
From Coq Require Import String ZArith List Bool.
From Verif Require Import Base Utf8 Queue SourceQueue.
Import ListNotations.
Open Scope Z_scope.

(** lexer.go:18, token.go:77-90 *)
Definition EofTokenType : Z := -2.
Definition EoiTokenType : Z := -3.
Definition LowestTokenType : Z := -3.
Definition ErrorTokenType : Z := LowestTokenType - 1.
Definition ErrorTokenName : string := "-error-".
Definition EofTokenName : string := "-eof-".
Definition EoiTokenName : string := "-eoi-".

(** lexer.go:46: 1<<64 - 1 *)
Definition AllTokenTypes : Z := Z.ones 64.

Section Lexer.
(** a *source.Source and its content *)
Context {S : Type} (content : S -> list Z).
Definition slen (s : S) : Z := zlen (content s).

(** token.go:12-17; the position (source.Pos) is source and offset. *)
Record token := mkToken {
  tokType : Z; tokName : string; tokContent : list Z; tokSource : option S; tokPos : Z }.

(** source.go:154-160 NewPos: position 0 without a source *)
Definition newToken (ty : Z) (name : string) (c : list Z) (s : option S) (pos : Z) : token :=
  mkToken ty name c s (match s with None => 0 | Some _ => pos end).

(** token.go:92-101 *)
Definition eofToken (s : S) : token := newToken EofTokenType EofTokenName [] (Some s) (slen s).
Definition eoiToken : token := newToken EoiTokenType EoiTokenName [] None 0.

(** lexer.go:78-86: the source, offset and rune reported for a wrong char (the
    line and column are LineCol of the offset, see Source.v), the offending token
    for a bad token. *)
Inductive lexError := WrongChar (s : S) (pos : Z) (r : Z) | BadToken (t : token).

(** lexer.go:55-59 without the regexp *)
Record lexer := mkLexer { ltypes : list (Z * string); ltypeMask : Z }.

(** lexer.go:64-77 *)
Fixpoint newLoop (types : list (Z * string)) (ts : list (Z * string)) (tm : Z) : lexer :=
  match types with
  | [] => mkLexer (rev ts) tm
  | (t, n) :: r =>
      if (0 <=? t) && (t <? 64)
      then newLoop r ((t, n) :: ts) (Z.lor tm (Z.shiftl 1 t))
      else newLoop r ((ErrorTokenType, n) :: ts) tm
  end.
Definition newLexer (types : list (Z * string)) : lexer := newLoop types [] 0.

Context (re : list Z -> list Z).

(** Result of matchToken: token, advance, error. *)
Definition mres : Type := option token * Z * option lexError.

(** lexer.go:98-117: the loop over the groups of the match.  [rest] is
    match[i:], [i] the index.  The last component tells whether the function
    has returned. *)
Fixpoint groupLoop (l : lexer) (src : S) (c : list Z) (pos : Z) (tts m1 : Z)
    (i : Z) (rest : list Z) (matched : bool) : option (mres * bool) :=
  match rest with
  | [] => Some ((None, if matched then 0 else m1, None), false)
  | a :: rest1 =>
      (* match[i+1] panics when the list is odd *)
      match rest1 with
      | [] => if 0 <=? a then None else Some ((None, if matched then 0 else m1, None), false)
      | b :: rest2 =>
          if (0 <=? a) && (0 <=? b) then
            do td <-
              (if Z.shiftr i 1 <=? zlen (ltypes l)
               then zget (ltypes l) (Z.shiftr i 1 - 1)
               else Some (ErrorTokenType, ErrorTokenName));
            let '(ty, name) := td in
            if (Z.shiftr i 1 <=? zlen (ltypes l)) && (0 <=? ty) && negb (Z.testbit tts ty)
            then groupLoop l src c pos tts m1 (i + 2) rest2 true
            else
              do txt <- zslice c a b;
              let t := newToken ty name txt (Some src) (pos + a) in
              if ty =? ErrorTokenType then Some ((None, 0, Some (BadToken t)), true)
              else Some ((Some t, m1, None), true)
          else groupLoop l src c pos tts m1 (i + 2) rest2 matched
      end
  end.

(** lexer.go:88-124 *)
Definition matchToken (l : lexer) (src : S) (cont : list Z) (pos tts : Z) : option mres :=
  do c <- zslice cont pos (zlen cont);
  match re c with
  | m0 :: m1 :: rest =>
      if negb (m0 =? 0) || (m1 <=? m0)
      then Some (None, 0, Some (WrongChar src pos (fst (decodeRune c))))
      else do (r, _) <- groupLoop l src c pos tts m1 2 rest false; Some r
  | [m0] =>
      if negb (m0 =? 0) then Some (None, 0, Some (WrongChar src pos (fst (decodeRune c)))) else None
  | [] => Some (None, 0, Some (WrongChar src pos (fst (decodeRune c))))
  end.

(** lexer.go:126-141 *)
Definition fetch (l : lexer) (q : squeue) (tSet : Z) : option (squeue * (option token * bool * option lexError)) :=
  let cont := match scur q with None => [] | Some s => content s end in
  let pos := match scur q with None => 0 | Some _ => spos q end in
  if zlen cont - pos <=? 0 then
    match scur q with
    | None => Some (q, (Some eoiToken, false, None))
    | Some s => do (q', _) <- sqNextSource q; Some (q', (Some (eofToken s), false, None))
    end
  else
    match scur q with
    | None => None (* not reached: the content is not empty *)
    | Some s =>
        do (r, e) <- matchToken l s cont pos tSet;
        let '(tok, advance) := r in
        Some (sqSkip slen q advance, (tok, 0 <? advance, e))
    end.

Definition lexResult : Type := option token * option lexError.

(** lexer.go:147-154; [None] = panic or out of fuel *)
Fixpoint nextLoop (fuel : nat) (l : lexer) (q : squeue) : option (squeue * lexResult) :=
  match fuel with
  | O => None
  | Datatypes.S f =>
      do (q', r) <- fetch l q AllTokenTypes;
      let '(t, _, e) := r in
      match t, e with
      | None, None => nextLoop f l q'
      | _, _ => Some (q', (t, e))
      end
  end.

(** lexer.go:167-171 *)
Fixpoint nextOfLoop (fuel : nat) (l : lexer) (q : squeue) (tts : Z) : option (squeue * lexResult) :=
  match fuel with
  | O => None
  | Datatypes.S f =>
      do (q', r) <- fetch l q tts;
      let '(t, advanced, e) := r in
      match t, e with
      | None, None => if (advanced : bool) then nextOfLoop f l q' tts else Some (q', (t, e))
      | _, _ => Some (q', (t, e))
      end
  end.

(** Enough fuel for both loops: one more than the bytes left in the current source. *)
Definition lexFuel (q : @squeue S) : nat :=
  Datatypes.S (Z.to_nat (match scur q with None => 0 | Some s => slen s - spos q end)).

Definition lexNext (l : lexer) (q : squeue) := nextLoop (lexFuel q) l q.

(** lexer.go:162-172 *)
Definition lexNextOf (l : lexer) (q : squeue) (tts : Z) : option (squeue * lexResult) :=
  if Z.land tts (ltypeMask l) =? 0 then Some (q, (None, None))
  else nextOfLoop (lexFuel q) l q tts.

End Lexer.
Arguments token S : clear implicits.
Arguments lexError S : clear implicits.
