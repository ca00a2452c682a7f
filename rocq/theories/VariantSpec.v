(** Specification of variants: ways to go on with a node, as rules tried one after another
    (README.md:94-100, grammar/grammar.go:1-25). *)
From Coq Require Import ZArith List Bool.
From Verif Require Import Base Grammar Rules RulesSpec.
Import ListNotations.
Open Scope Z_scope.

Section S.
Context {Tok : Type} (ttype : Tok -> Z) (ttext : Tok -> list Z) (toUpper : list Z -> list Z).
Variable g : grammar.

(** The rules a state offers for a token ([None] is the end of input).  A side token changes
    nothing.  Other tokens get the rules of their first key that has rules. *)
Inductive offers (t : option Tok) (i : Z) : rule -> Prop :=
| O_side tok st : t = Some tok -> isSide ttype g t -> zget (gStates g) i = Some st -> offers t i (mkRule (ttype tok) repeatState SameNode)
| O_rule st rules multi keys rs r : ~ isSide ttype g t -> (forall tok, t = Some tok -> ttype tok < zlen (gTokens g)) ->
    zget (gStates g) i = Some st -> zslice (gRules g) (sLow st) (sHigh st) = Some rules -> zslice (gMultiRules g) (sLowMulti st) (sHighMulti st) = Some multi ->
    keysOf ttype ttext toUpper g t keys -> selected g rules multi keys rs -> In r rs -> offers t i r.

(** Nodes that are not finished, the last pushed first, with their states *)
Definition nodes := list (Z * Z).
Fixpoint dropped (l : nodes) : nodes :=
  match l with
  | [] => []
  | (n, i) :: r => if i =? FinalState then dropped r else l
  end.
Inductive turns (i : Z) (r : rule) : Z -> Prop :=
| T_same : rState r = repeatState -> turns i r i
| T_final : rState r = FinalState -> turns i r FinalState
| T_state st : rState r <> repeatState -> zget (gStates g) (rState r) = Some st -> turns i r (rState r).
(** What a rule does with nodes *)
Inductive moves (r : rule) : nodes -> nodes -> Prop :=
| M_same n i l j : rNode r = SameNode -> turns i r j -> moves r ((n, i) :: l) (dropped ((n, j) :: l))
| M_new n i l j d st : rNode r <> SameNode -> turns i r j -> zget (gNodes g) (rNode r) = Some d -> zget (gStates g) (gnFirst d) = Some st ->
    moves r ((n, i) :: l) (dropped ((rNode r, gnFirst d) :: (n, j) :: l)).
(** Does the rule take the token? *)
Definition takes (t : option Tok) (r : rule) : Prop := t = None \/ (rNode r = SameNode /\ rToken r <> AnyToken).

(** A variant: rules [rs] tried one after another from the node [start] take the first [k] tokens
    and leave nodes [l]. *)
Inductive variant (start : Z * Z) (ts : list (option Tok)) : list rule -> nat -> nodes -> Prop :=
| V_start : variant start ts [] 0 [start]
| V_take rs k l t n i l' r : variant start ts rs k ((n, i) :: l) -> nth_error ts k = Some t -> offers t i r -> moves r ((n, i) :: l) l' -> takes t r ->
    variant start ts (rs ++ [r]) (S k) l'
| V_skip rs k l t n i l' r : variant start ts rs k ((n, i) :: l) -> nth_error ts k = Some t -> offers t i r -> moves r ((n, i) :: l) l' -> ~ takes t r ->
    variant start ts (rs ++ [r]) k l'.
End S.
