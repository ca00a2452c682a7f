(** What the style checker should tell. *)
From Coq Require Import List String Ascii Arith.
From Verif Require Import Style.
Import ListNotations.
Open Scope string_scope.
Open Scope nat_scope.
Open Scope list_scope.

(** the message reported last for a place *)
Definition lastAt (calls : list place_report) (line col : nat) (m : string) : Prop :=
  exists before after, calls = before ++ (line, col, m) :: after /\ forall m', ~ In (line, col, m') after.
(** places go line by line, then column by column *)
Definition earlier (a b : place_report) : Prop :=
  let '(l, c, _) := a in let '(l', c', _) := b in l < l' \/ l = l' /\ c < c'.

(** Operators: a space stands before an opening brace, after a comma and after a closing brace, and at no other side of an operator. *)
Definition endsWithSpace (l : list stok) : Prop := exists l' t, l = l' ++ [t] /\ sType t = "space".
Definition startsWithSpace (l : list stok) : Prop := exists t l', l = t :: l' /\ sType t = "space".
Definition spacedWell (toks : list stok) : Prop :=
  forall before t after, toks = before ++ t :: after -> sType t = "op" ->
    (endsWithSpace before <-> sText t = "{") /\ (startsWithSpace after <-> sText t = "," \/ sText t = "}").
Definition tab := "009"%char.
Definition newline := "010"%char.
Definition contains (s : string) (c : ascii) : Prop := exists a b, s = (a ++ String c b)%string.
Definition noTabs (toks : list stok) : Prop := forall t, In t toks -> sType t = "indent" \/ sType t = "space" -> ~ contains (sText t) tab.
Definition endsWithNewline (toks : list stok) : Prop := exists l t, toks = l ++ [t] /\ sType t = "indent".

(** The column where a line starts after an indent, with tab stops after each 8 columns (the code does not name the width; 8 is the one its formula uses). *)
Fixpoint widthFrom (s : string) (w : nat) : nat :=
  match s with
  | EmptyString => w
  | String c r => widthFrom r (if Ascii.eqb c tab then (w / 8 + 1) * 8 else w + 1)
  end.
Definition width (s : string) : nat := widthFrom s 0.

(** Complaints about one operator: what is said and about which place. *)
Definition isSpaceToken (t : stok) : Prop := sType t = "space".
Definition wantsAfter (t : stok) : Prop := sText t = "," \/ sText t = "}".
Definition at_token (t : stok) (m : string) : place_report := (sLine t, sCol t, m).
Inductive complaint (before : list stok) (t : stok) (after : list stok) : place_report -> Prop :=
| excess_before b s : before = b ++ [s] -> isSpaceToken s -> sText t <> "{" -> complaint before t after (at_token s ("excess space before " ++ sText t)%string)
| missing_before : ~ endsWithSpace before -> sText t = "{" -> complaint before t after (at_token t "missing space before {")
| excess_after s a : after = s :: a -> isSpaceToken s -> ~ wantsAfter t -> complaint before t after (at_token s ("excess space after " ++ sText t)%string)
| missing_after x a : after = x :: a -> ~ isSpaceToken x -> wantsAfter t -> complaint before t after (at_token x ("missing space after " ++ sText t)%string)
(** the two for an operator at the end of the file, which the grammar does not let be a comma or a closing brace *)
| missing_end : after = [] -> ~ endsWithSpace before -> wantsAfter t -> complaint before t after (at_token t ("missing space after " ++ sText t)%string)
| missing_end_space b s : after = [] -> before = b ++ [s] -> isSpaceToken s -> wantsAfter t -> complaint before t after (at_token s ("missing space after " ++ sText t)%string).
