(** Specification of the rule lookup: what the keys of a token are, what tables are well
    formed, which rules a state has for a key. *)
From Coq Require Import ZArith List Bool Sorted.
From Verif Require Import Base Grammar.
Import ListNotations.
Open Scope Z_scope.

Section S.
Context {Tok : Type} (ttype : Tok -> Z) (ttext : Tok -> list Z) (toUpper : list Z -> list Z).
Variable g : grammar.

Definition tokenFlag (i f : Z) : Prop := exists d, zget (gTokens g) i = Some d /\ hasFlag (gtFlags d) f = true.
Definition isLiteral (text : name) (i : Z) : Prop :=
  exists d, zget (gTokens g) i = Some d /\ hasFlag (gtFlags d) LiteralToken = true /\ gtName d = text.
(** the literal for a text: the last one if there are several *)
Definition literalOf (text : name) (i : Z) : Prop :=
  isLiteral text i /\ forall j, isLiteral text j -> j <= i.

Definition isSide (t : option Tok) : Prop := exists tok, t = Some tok /\ tokenFlag (ttype tok) SideToken.

(** The text a token is matched by; token types may forbid matching by text. *)
Definition matchText (t : Tok) (d : gtoken) : name :=
  if hasFlag (gtFlags d) CaselessToken then toUpper (ttext t) else ttext t.
Inductive literalFor (t : Tok) (i : Z) : Prop :=
| LF d (T : zget (gTokens g) (ttype t) = Some d) (NL : hasFlag (gtFlags d) NoLiteralsToken = false)
     (L : literalOf (matchText t d) i).

(** Keys of a token in the order of priority.  [AnyToken] goes last; a token matching a
    reserved literal loses its own type. *)
Inductive keysOf : option Tok -> list Z -> Prop :=
| K_none : keysOf None [AnyToken]
| K_type t : (forall i, ~ literalFor t i) -> keysOf (Some t) [ttype t; AnyToken]
| K_literal t i : literalFor t i -> ~ tokenFlag i ReservedToken -> keysOf (Some t) [i; ttype t; AnyToken]
| K_reserved t i : literalFor t i -> tokenFlag i ReservedToken -> keysOf (Some t) [i; AnyToken].

(** A state of a grammar: ranges are within the tables, keys are in ascending order, a key has
    either one rule or a (non-empty) range of rules. *)
Record stateOk (s : state) (rules : list rule) (multi : list multiRule) : Prop := mkStateOk {
  so_rules : zslice (gRules g) (sLow s) (sHigh s) = Some rules;
  so_multi : zslice (gMultiRules g) (sLowMulti s) (sHighMulti s) = Some multi;
  so_sorted : StronglySorted Z.lt (map rToken rules);
  so_msorted : StronglySorted Z.lt (map mToken multi);
  so_range : forall m, In m multi -> exists rs, zslice (gRules g) (mLow m) (mHigh m) = Some rs /\ rs <> [];
  so_excl : forall r m, In r rules -> In m multi -> rToken r <> mToken m
}.

(** The rules of a state for a key *)
Inductive hasRules (rules : list rule) (multi : list multiRule) (key : Z) : list rule -> Prop :=
| HR_one r : In r rules -> rToken r = key -> hasRules rules multi key [r]
| HR_many m rs : In m multi -> mToken m = key -> zslice (gRules g) (mLow m) (mHigh m) = Some rs -> hasRules rules multi key rs.

(** The first key having rules decides. *)
Inductive selected (rules : list rule) (multi : list multiRule) : list Z -> list rule -> Prop :=
| S_none : selected rules multi [] []
| S_here key ks rs : hasRules rules multi key rs -> selected rules multi (key :: ks) rs
| S_later key ks rs : (forall rs', ~ hasRules rules multi key rs') -> selected rules multi ks rs -> selected rules multi (key :: ks) rs.
End S.
