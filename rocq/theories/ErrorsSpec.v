(** Specification: what error values tell.  Messages are made of pieces: fixed words, names as they are, names quoted as in Go, numbers, characters. *)
From Coq Require Import String ZArith List Bool.
From Verif Require Import Base Utf8 LangStringSpec SourceSpec Errors GoSpec Source Prop_Source.
From Verif Require LangText.
Import ListNotations.
Local Open Scope string_scope.
Local Open Scope list_scope.
Open Scope Z_scope.

(** ** Messages *)
Inductive piece :=
| Says (s : string)     (* these words *)
| Plain (s : text)      (* a name as it is *)
| Quoted (s : text)     (* a name as a string of Go *)
| Number (n : Z)        (* decimal *)
| Char (r : Z)          (* UTF-8 *)
| Hexadecimal (n : Z).
(** Digits of a number that is not negative, without leading zeros *)
Inductive digitsOf (base : Z) (digit : Z -> Z) : Z -> text -> Prop :=
| DO_one d : 0 <= d < base -> digitsOf base digit d [digit d]
| DO_more n d u : 0 < n -> 0 <= d < base -> digitsOf base digit n u -> digitsOf base digit (n * base + d) (u ++ [digit d]).
Definition decDigit (d : Z) : Z := 48 + d.
Definition hexDigit (d : Z) : Z := if d <? 10 then 48 + d else 97 + (d - 10).
Inductive shows : piece -> text -> Prop :=
| SH_says s : shows (Says s) (bytes s)
| SH_plain s : shows (Plain s) s
| SH_quoted s u : run (Idle false) u = Some ([GStr s], Idle true) -> shows (Quoted s) u
| SH_number n u : 0 <= n -> digitsOf 10 decDigit n u -> shows (Number n) u
| SH_negative n u : n < 0 -> digitsOf 10 decDigit (- n) u -> shows (Number n) (45 :: u)
| SH_char r u : utf8 r u -> shows (Char r) u
| SH_hex n u : 0 <= n -> digitsOf 16 hexDigit n u -> shows (Hexadecimal n) u.
Inductive reads : list piece -> text -> Prop :=
| RD_nil : reads [] []
| RD_cons p ps u v : shows p u -> reads ps v -> reads (p :: ps) (u ++ v).

(** ** Errors *)
(** where something is: the name of the source, the line and the column *)
Record place := mkPlace { pName : text; pLine : Z; pCol : Z }.
Definition nowhere : place := mkPlace [] 0 0.
(** what is added to messages: nothing if the source has no name *)
Definition whereText (w : place) : list piece :=
  if (0 <? zlen (pName w)) && negb (pLine w =? 0) then [Says " in "; Plain (pName w); Says " at line "; Number (pLine w); Says " col "; Number (pCol w)] else [].
(** the error is of this code, about this place, and says this *)
Definition tells (e : llxError) (code : Z) (w : place) (ps : list piece) : Prop :=
  eCode e = code /\ eSourceName e = pName w /\ eLine e = pLine w /\ eCol e = pCol w /\ reads (ps ++ whereText w) (eMessage e).
(** Lines and columns are of Go ints. *)
Definition goInt (n : Z) : Prop := - 2 ^ 63 <= n < 2 ^ 63.

(** texts in messages are short: "abcdefg..." for more than 10 bytes *)
Definition shortened (s u : text) : Prop :=
  zlen s <= 10 /\ u = s \/ 10 < zlen s /\ exists a b, s = a ++ b /\ zlen a = 7 /\ u = a ++ bytes "...".

(** ** Sources *)
Section S.
Context {S : Type} (content : S -> text) (sourceName : S -> text) (sourceNow : S -> src).
(** Each source was made of its content, then lines, columns and offsets were asked for somehow. *)
Definition usedSources : Prop := forall s, exists ops s0 outs, newSrc (content s) = Some s0 /\ src_run s0 ops = Some (sourceNow s, outs).
(** A place in a source: lines and columns are counted in its text. *)
Definition placeOf (s : option S) (pos : Z) : place :=
  match s with
  | None => nowhere
  | Some s => mkPlace (sourceName s) (fst (line_col_spec (content s) pos)) (snd (line_col_spec (content s) pos))
  end.
End S.
