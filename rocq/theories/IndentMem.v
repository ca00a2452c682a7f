(** Model of hook layer indent (/repo/parser/layers/indent/indent.go) over memory: texts of tokens and indentations are slices of arrays, as they
    are in Go, so that "append" at line 288 writes where Go writes.  Indent.v has the same functions over lists.
    - An array that has room after the text of a source, or after what append made, is modelled without that room: append makes a new array
      there.  Nobody but the layer may read such room, and it extends the current indentation only.
    - PeekToken is a function of memory: sources are read again when it is called. *)
From Coq Require Import ZArith List Bool.
From Verif Require Import Base Grammar LangTypes StdLayers Indent.
From Verif Require Lexer.
Import ListNotations.
Open Scope Z_scope.

(** arrays of bytes *)
Definition memory := list (list Z).
(** a slice: its array, offset and length; the capacity lasts to the end of the array *)
Record slice := mkSl { slArr : nat; slOff : nat; slLen : nat }.
Definition nilSlice : slice := mkSl 0 0 0.
(** the bytes of a slice *)
Definition text (m : memory) (s : slice) : name := firstn (slLen s) (skipn (slOff s) (nth (slArr s) m [])).
(** append(s, c...): in place if there is room in the array, otherwise in a new array *)
Definition appendTo (m : memory) (s : slice) (c : name) : slice * memory :=
  let a := nth (slArr s) m [] in
  let e := (slOff s + slLen s)%nat in
  if (e + length c <=? length a)%nat then (mkSl (slArr s) (slOff s) (slLen s + length c), upd m (slArr s) (firstn e a ++ c ++ skipn (e + length c) a))
  else (mkSl (length m) 0 (slLen s + length c), m ++ [text m s ++ c]).

Section Mem.
Context {Pos PE : Type}.
(** lexer/token.go:12-17 *)
Record mtok := mkMTok { mType : Z; mName : name; mText : slice; mPos : Pos }.
Inductive merror := MWrongToken (t : mtok) | MPeekError (e : PE).
(** indent.go:96-105 but for the constant part *)
Record mstate := mkMs { msStack : list slice; msValid : slice; msCurrent : slice; msSpaces : list mtok; msState : istate }.
Variable indentTok dedentTok : mtok.
Variable roles : list role.

(** indent.go:134-149 *)
Definition mrole (t : mtok) : option role :=
  let ty := mType t in
  if ty =? Lexer.EoiTokenType then Some REoi
  else if (ty <? 0) || (slLen (mText t) =? 0)%nat then Some REmpty
  else if ty <? zlen roles then zget roles ty
  else Some RCommon.
Definition msetState (s : istate) (ms : mstate) : mstate := mkMs (msStack ms) (msValid ms) (msCurrent ms) (msSpaces ms) s.
(** indent.go:183-189 *)
Definition mpad (ts : list mtok) (ms : mstate) : list mtok * mstate := (msSpaces ms ++ ts, mkMs (msStack ms) (msValid ms) (msCurrent ms) [] (msState ms)).
(** indent.go:151-160 *)
Definition mindent (ts : list mtok) (ms : mstate) : list mtok * mstate :=
  let ms := mkMs (msValid ms :: msStack ms) (msCurrent ms) (msCurrent ms) (msSpaces ms) (msState ms) in
  let (p, ms) := mpad ts ms in (indentTok :: p, ms).
(** indent.go:166-178: the loop *)
Fixpoint mdedentLoop (l : nat) (st : list slice) : list mtok * option (list slice) :=
  match st with
  | [] => ([], None)
  | x :: r => if (slLen x =? l)%nat then ([dedentTok], Some r) else let (d, res) := mdedentLoop l r in (dedentTok :: d, res)
  end.
(** indent.go:162-181 *)
Definition mdedent (ts : list mtok) (ms : mstate) : list mtok * mstate :=
  let (d, st) := mdedentLoop (slLen (msCurrent ms)) (msStack ms) in
  let ms := mkMs (match st with Some st => st | None => msStack ms end) (msCurrent ms) (msCurrent ms) (msSpaces ms) (msState ms) in
  let (p, ms) := mpad ts ms in (d ++ p, ms).
(** indent.go:191-222 *)
Definition mhandleCommon (t : mtok) (ms : mstate) : bool * list mtok * option merror * mstate :=
  match msState ms with
  | SIndented => (true, [], None, ms)
  | SValid => let (x, ms) := mpad [t] ms in (false, x, None, msetState SIndented ms)
  | SInc => let (x, ms) := mindent [t] ms in (false, x, None, msetState SIndented ms)
  | SDec => let (x, ms) := mdedent [t] ms in (false, x, None, msetState SIndented ms)
  | SInvalid | SSide => let (x, ms) := mpad [t] ms in (false, x, Some (MWrongToken t), ms)
  end.
(** indent.go:273-280: the part of a slice after the last newline *)
Definition mstripNl (m : memory) (s : slice) : option slice :=
  option_map (fun c => mkSl (slArr s) (slOff s + (slLen s - length c)) (length c)) (stripNl (text m s)).
(** indent.go:282-314: line 288 appends to the current indentation itself, not to its copy made above *)
Definition madjustIndent (c : slice) (m : memory) (ms : mstate) : mstate * memory :=
  let (cur, m) := if (slLen (msCurrent ms) =? 0)%nat then (c, m) else appendTo m (msCurrent ms) (text m c) in
  let s :=
    if (slLen (msValid ms) <? slLen cur)%nat then (if hasPrefix (text m cur) (text m (msValid ms)) then SInc else SInvalid)
    else if hasPrefix (text m (msValid ms)) (text m cur) then
      (if (slLen cur =? slLen (msValid ms))%nat then SValid
       else if existsb (fun x => (slLen x =? slLen cur)%nat) (msStack ms) then SDec else SInvalid)
    else SInvalid in
  (mkMs (msStack ms) (msValid ms) cur (msSpaces ms) s, m).
(** indent.go:224-271 *)
Definition mhandleSpace (t : mtok) (peek : memory -> option mtok * option PE) (m : memory) (ms : mstate) : option (bool * list mtok * option merror * mstate * memory) :=
  let (content, ms) :=
    match mstripNl m (mText t) with
    | Some c => (c, mkMs (msStack ms) (msValid ms) nilSlice (msSpaces ms) (if (slLen (msValid ms) =? 0)%nat then SValid else SDec))
    | None => (mText t, ms)
    end in
  if isIndented (msState ms) then Some (true, [], None, ms, m)
  else
    let (ms, m) := if isSideState (msState ms) then (ms, m) else madjustIndent content m ms in
    match peek m with
    | (_, Some e) => Some (false, [], Some (MPeekError e), ms, m)
    | (None, None) => None
    | (Some next, None) =>
        let ms := mkMs (msStack ms) (msValid ms) (msCurrent ms) (msSpaces ms ++ [t]) (msState ms) in
        do r <- mrole next ;
        if negb (isCommon r) then Some (false, [], None, ms, m)
        else Some (match msState ms with
        | SValid => let (x, ms) := mpad [] ms in (false, x, None, msetState SIndented ms)
        | SInvalid | SSide => let (x, ms) := mpad [] ms in (false, x, Some (MWrongToken t), ms)
        | SInc => let (x, ms) := mindent [] ms in (false, x, None, msetState SIndented ms)
        | SDec => let (x, ms) := mdedent [] ms in (false, x, None, msetState SIndented ms)
        | SIndented => (false, [], None, ms)
        end, m)
    end.
(** indent.go:316-328 *)
Definition mhandleSide (t : mtok) (peek : memory -> option mtok * option PE) (m : memory) (ms : mstate) : option (bool * list mtok * option merror * mstate) :=
  if isIndented (msState ms) then Some (true, [], None, ms)
  else
    let ms := msetState SSide ms in
    match peek m with
    | (_, Some e) => let (x, ms) := mpad [t] ms in Some (false, x, Some (MPeekError e), ms)
    | (None, None) => let (x, ms) := mpad [t] ms in Some (false, x, None, ms)
    | (Some next, None) =>
        do r <- mrole next ;
        if negb (isCommon r) then let (x, ms) := mpad [t] ms in Some (false, x, None, ms)
        else Some (false, [], Some (MWrongToken t), ms)
    end.
(** indent.go:330-346 *)
Definition mhandleEoi (t : mtok) (ms : mstate) : list mtok * mstate :=
  let (p, ms') := mpad [] ms in (map (fun _ => dedentTok) (msStack ms) ++ p ++ [t], ms').
(** indent.go:113-132 *)
Definition mhandle (t : mtok) (peek : memory -> option mtok * option PE) (m : memory) (ms : mstate) : option (bool * list mtok * option merror * mstate * memory) :=
  do r <- mrole t ;
  match r with
  | REoi => let (x, ms) := mhandleEoi t ms in Some (false, x, None, ms, m)
  | RCommon => Some (mhandleCommon t ms, m)
  | RSpace => mhandleSpace t peek m ms
  | RSide => do r <- mhandleSide t peek m ms ; Some (r, m)
  | REmpty => Some (true, [], None, ms, m)
  end.
(** indent.go:348-354: the initial state *)
Definition minitState : mstate := mkMs [] nilSlice nilSlice [] SValid.
(** parser.go:753-807 and 697-723, as in Indent.v *)
Definition mlayerStep (t : mtok) (peek : memory -> option mtok * option PE) (m : memory) (ms : mstate) : option (list mtok * option merror * mstate * memory) :=
  if mType t =? Lexer.EofTokenType then Some ([t], None, ms, m)
  else
    do x <- mhandle t peek m ms ;
    let '(emit, extra, e, ms, m) := x in
    let special := negb emit && (mType t <? 0) in
    let emit' := if special then match extra with [] => true | _ => false end else emit in
    let extra' := if special then match extra with [] => [] | _ => extra ++ [t] end else extra in
    Some ((if emit' then [t] else []) ++ extra', e, ms, m).
Fixpoint mrun (s : list (mtok * (memory -> option mtok * option PE))) (m : memory) (ms : mstate) : option (list mtok * option merror * mstate * memory) :=
  match s with
  | [] => Some ([], None, ms, m)
  | (t, p) :: r =>
      do x <- mlayerStep t p m ms ;
      match x with
      | (o, Some e, ms, m) => Some ([], Some e, ms, m)
      | (o, None, ms, m) =>
          do y <- mrun r m ms ;
          let '(o', e, ms, m) := y in Some (o ++ o', e, ms, m)
      end
  end.

(** ** The layer with a source and a layer before it *)
(** A lexer gives the type, its name and the length of the token at the beginning of a text. *)
Variable lex : name -> option (Z * name * nat).
Variable noPos : Pos.
(** a layer like convert that stands before this one may replace tokens by their texts; texts it puts in have arrays of their own (convert.go:146-164) *)
Variable replace : name -> option (Z * name * slice).
Variable eoi : mtok.
(** the token at a position of the source in array 0 *)
Definition tokenAt (m : memory) (pos : nat) : option mtok :=
  match skipn pos (nth 0 m []) with
  | [] => Some eoi
  | rest => option_map (fun '(ty, n, len) => mkMTok ty n (mkSl 0 pos len) noPos) (lex rest)
  end.
Definition replaced (m : memory) (t : mtok) : mtok :=
  match replace (text m (mText t)) with Some (ty, n, s) => mkMTok ty n s (mPos t) | None => t end.
(** what the layer gives out for the source, to the end of input or to an error.  PeekToken gives tokens of the source as they are (hooks.go:120-146). *)
Fixpoint drive (fuel : nat) (m : memory) (pos : nat) (ms : mstate) : option (list mtok * memory) :=
  match fuel with
  | O => None
  | S fuel =>
      do t <- tokenAt m pos ;
      let pos' := (pos + slLen (mText t))%nat in
      do x <- mlayerStep (if mType t =? Lexer.EoiTokenType then t else replaced m t) (fun m => (tokenAt m pos', None)) m ms ;
      let '(o, e, ms, m) := x in
      match e with
      | Some _ => Some (o, m)
      | None => if mType t =? Lexer.EoiTokenType then Some (o, m) else do y <- drive fuel m pos' ms ; Some (o ++ fst y, snd y)
      end
  end.
End Mem.
Arguments mtok Pos : clear implicits. Arguments merror Pos PE : clear implicits. Arguments mstate Pos : clear implicits.
