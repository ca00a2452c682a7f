(** Independent specifications for the source package. *)
From Coq Require Import ZArith List Bool.
From Verif Require Import Utf8.
Import ListNotations.
Open Scope Z_scope.

(** Number of line feeds (byte 10). *)
Definition lf_count (l : list Z) : nat := length (filter (Z.eqb 10) l).

Fixpoint take_until_lf (l : list Z) : list Z :=
  match l with [] => [] | b :: r => if b =? 10 then [] else b :: take_until_lf r end.

(** The part of a text after its last line feed. *)
Definition last_line (l : list Z) : list Z := rev (take_until_lf (rev l)).

(** Offset limited to the text. *)
Definition clamp (n : nat) (pos : Z) : nat := Nat.min n (Z.to_nat pos).

(** 1-based line and column of a byte offset: count the line feeds before it,
    and the runes between the last of them and the offset. *)
Definition line_col_spec (c : list Z) (pos : Z) : Z * Z :=
  let before := firstn (clamp (length c) pos) c in
  (1 + Z.of_nat (lf_count before), 1 + Z.of_nat (length (runes (last_line before)))).

(** "\r\n" and "\r" become "\n". *)
Fixpoint nl_spec (l : list Z) : list Z :=
  match l with
  | [] => []
  | b :: r =>
      if b =? 13 then
        10 :: match r with
              | c :: r' => if c =? 10 then nl_spec r' else nl_spec r
              | [] => []
              end
      else b :: nl_spec r
  end.

(** [pos] is an offset at which a rune of the text starts (or its end). *)
Definition boundary (c : list Z) (pos : Z) : Prop :=
  exists k, pos = Z.of_nat (length (concat (firstn k (runes c)))).

(** The text after its [n]-th line feed. *)
Fixpoint after_lf (c : list Z) : list Z :=
  match c with [] => [] | b :: r => if b =? 10 then r else after_lf r end.
Fixpoint drop_lines (n : nat) (c : list Z) : list Z :=
  match n with O => c | S k => drop_lines k (after_lf c) end.

(** The text of the 1-based line [line], without its line feed. *)
Definition line_text (c : list Z) (line : Z) : list Z :=
  take_until_lf (drop_lines (Z.to_nat (line - 1)) c).
Definition line_count (c : list Z) : Z := 1 + Z.of_nat (lf_count c).

(** Offset of a 1-based line and column: 0 when one of them is not positive,
    the end of the text for a line past the last one, otherwise what precedes the line
    plus its first [col - 1] runes (all of them if there are fewer). *)
Definition pos_spec (c : list Z) (line col : Z) : Z :=
  if (line <=? 0) || (col <=? 0) then 0
  else if line_count c <? line then Z.of_nat (length c)
  else
    let rest := drop_lines (Z.to_nat (line - 1)) c in
    Z.of_nat (length c - length rest)
    + Z.of_nat (length (concat (firstn (Z.to_nat (col - 1)) (runes (line_text c line))))).
