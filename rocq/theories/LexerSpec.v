(** Specification of the lexer, and the driver mixing queue and lexer calls. *)
From Coq Require Import String ZArith List Bool.
From Verif Require Import Base Queue SourceQueue SourceQueueSpec Lexer.
Import ListNotations.
Open Scope Z_scope.

(** Offsets of the groups: the list after the whole match, cut in pairs. *)
Fixpoint flat (gs : list (Z * Z)) : list Z :=
  match gs with [] => [] | (a, b) :: r => a :: b :: flat r end.

(** What regexp.FindSubmatchIndex promises: nil, or the offsets of a match
    inside the text followed by those of the groups, each one not captured
    (-1,-1) or inside the match. *)
Definition re_contract (re : list Z -> list Z) : Prop :=
  forall c, re c = [] \/
  exists m0 m1 gs, re c = m0 :: m1 :: flat gs /\ 0 <= m0 <= m1 /\ m1 <= zlen c /\
    Forall (fun g => g = (-1, -1) \/ (m0 <= fst g <= snd g /\ snd g <= m1)) gs.

(** Type of the [k]-th group (from 0): [None] is an error group. *)
Definition group_type (types : list (Z * string)) (k : nat) : option (Z * string) :=
  match nth_error types k with
  | Some (t, n) => if (0 <=? t) && (t <=? 63) then Some (t, n) else None
  | None => None
  end.
Definition error_name (types : list (Z * string)) (k : nat) : string :=
  match nth_error types k with Some (_, n) => n | None => "-error-" end.

Definition captured (g : Z * Z) : bool := 0 <=? fst g.

(** First captured group that is wanted or is an error group. *)
Fixpoint pick (types : list (Z * string)) (tts : Z) (k : nat) (gs : list (Z * Z)) : option (nat * (Z * Z)) :=
  match gs with
  | [] => None
  | g :: r =>
      if captured g && match group_type types k with None => true | Some (t, _) => Z.testbit tts t end
      then Some (k, g) else pick types tts (S k) r
  end.

Section Spec.
Context {S : Type} (content : S -> list Z) (re : list Z -> list Z) (types : list (Z * string)).

Definition sub (l : list Z) (pos n : Z) : list Z := firstn (Z.to_nat n) (skipn (Z.to_nat pos) l).

(** The text matched at [pos] is insignificant: nothing captured. *)
Definition insignificant (s : S) (pos n : Z) : Prop :=
  exists gs, re (skipn (Z.to_nat pos) (content s)) = 0 :: n :: flat gs /\ 0 < n /\
             forall g, In g gs -> captured g = false.

(** A match of length [n] at [pos] whose group [k], the first captured one that is
    wanted or an error, spans [a,b). *)
Definition matched (s : S) (tts pos n : Z) (k : nat) (a b : Z) : Prop :=
  exists gs, re (skipn (Z.to_nat pos) (content s)) = 0 :: n :: flat gs /\ 0 < n /\
             pick types tts 0 gs = Some (k, (a, b)).

(** The regexp does not match a non-empty text at [pos]. *)
Definition no_match (s : S) (pos : Z) : Prop :=
  match re (skipn (Z.to_nat pos) (content s)) with
  | m0 :: m1 :: _ => m0 <> 0 \/ m1 <= 0
  | _ => True
  end.

(** The match at [pos] has captured something, but nothing wanted. *)
Definition unwanted (s : S) (tts pos : Z) : Prop :=
  exists n gs, re (skipn (Z.to_nat pos) (content s)) = 0 :: n :: flat gs /\ 0 < n /\
    (exists g, In g gs /\ captured g = true) /\ pick types tts 0 gs = None.

(** How a call ends: end of source, wrong char, bad token, nothing, or a token
    with the whole lexeme it was found in. *)
Inductive final :=
| FEof | FWrong (r : Z) | FBad (t : token S) | FNothing | FToken (t : token S) (lexeme : list Z).

(** [scan s tts pos skipped pos' f]: from [pos], insignificant lexemes [skipped]
    are passed one after another, then the call ends as [f] with position [pos']. *)
Inductive scan (s : S) (tts : Z) : Z -> list (list Z) -> Z -> final -> Prop :=
| scan_eof pos : zlen (content s) <= pos -> scan s tts pos [] pos FEof
| scan_wrong pos : pos < zlen (content s) -> no_match s pos ->
    scan s tts pos [] pos (FWrong (fst (Utf8.decodeRune (skipn (Z.to_nat pos) (content s)))))
| scan_nothing pos : pos < zlen (content s) -> unwanted s tts pos -> scan s tts pos [] pos FNothing
| scan_bad pos n k a b : pos < zlen (content s) -> matched s tts pos n k a b -> group_type types k = None ->
    scan s tts pos [] pos
      (FBad (mkToken (-4) (error_name types k) (sub (content s) (pos + a) (b - a)) (Some s) (pos + a)))
| scan_token pos n k a b t name : pos < zlen (content s) -> matched s tts pos n k a b ->
    group_type types k = Some (t, name) ->
    scan s tts pos [] (pos + n)
      (FToken (mkToken t name (sub (content s) (pos + a) (b - a)) (Some s) (pos + a))
              (sub (content s) pos n))
| scan_skip pos n skipped pos' f : pos < zlen (content s) -> insignificant s pos n ->
    scan s tts (pos + n) skipped pos' f ->
    scan s tts pos (sub (content s) pos n :: skipped) pos' f.

(** ** Histories *)

Inductive lop := LQueue (o : sqop S) | LNext | LNextOf (tts : Z).

(** What was seen around a lexer call: current source and position before and
    after it, and the result. *)
Inductive lout := LQ (r : sqret S)
| LTok (requested : option Z) (before : option S * Z) (res : @lexResult S) (after : option S * Z).

Definition seen (q : @squeue S) : option S * Z := (scur q, spos q).

Definition lex_step (l : lexer) (st : @squeue S * list (@snapshot S)) (o : lop) :=
  match o with
  | LQueue o' => do (st', r) <- sq_step (slen content) st o'; Some (st', LQ r)
  | LNext => do (q', r) <- lexNext content re l (fst st);
             Some ((q', snd st), LTok None (seen (fst st)) r (seen q'))
  | LNextOf tts => do (q', r) <- lexNextOf content re l (fst st) tts;
             Some ((q', snd st), LTok (Some tts) (seen (fst st)) r (seen q'))
  end.

Fixpoint lex_run (l : lexer) st (ops : list lop) :=
  match ops with
  | [] => Some (st, [])
  | o :: r => do (st1, a) <- lex_step l st o;
              do (st2, b) <- lex_run l st1 r; Some (st2, a :: b)
  end.

(** Number of sources ever added: bounds the length of the queue. *)
Fixpoint added (ops : list lop) : nat :=
  match ops with
  | [] => 0
  | LQueue (SqAppend _) :: r | LQueue (SqPrepend _) :: r => 1 + added r
  | _ :: r => added r
  end.

End Spec.
Arguments lop S : clear implicits.
Arguments lout S : clear implicits.
Arguments final S : clear implicits.

(** A text cut into lexemes from [p] to [p']: insignificant ones ([None]) and
    those that carry a token. *)
Inductive cut {S : Type} (content : S -> list Z) re types (s : S)
  : Z -> list (list Z * option (token S)) -> Z -> Prop :=
| cut_nil p : cut content re types s p [] p
| cut_skip p n l p' : insignificant content re s p n -> cut content re types s (p + n) l p' ->
    cut content re types s p ((sub (content s) p n, None) :: l) p'
| cut_token p n k a b t name l p' :
    matched content re types s AllTokenTypes p n k a b -> group_type types k = Some (t, name) ->
    0 <= a <= b -> b <= n -> cut content re types s (p + n) l p' ->
    cut content re types s p
      ((sub (content s) p n,
        Some (mkToken t name (sub (content s) (p + a) (b - a)) (Some s) (p + a))) :: l) p'.

Fixpoint tokens_of {S} (l : list (list Z * option (token S))) : list (token S) :=
  match l with
  | [] => []
  | (_, Some t) :: r => t :: tokens_of r
  | (_, None) :: r => tokens_of r
  end.
