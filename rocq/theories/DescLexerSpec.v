(** Specification: tokens of descriptions in a text (langdef/docs.go:37-76). *)
From Coq Require Import ZArith List Bool.
From Verif Require Import Base Grammar LangText LangTextSpec.
Import ListNotations.
Open Scope Z_scope.

(** docs.go:38-39 *)
Definition spaceByte (b : Z) : Prop := b = 32 \/ b = 9 \/ b = 10 \/ b = 12 \/ b = 13.
(** A text without [q], but after backslashes; 92 is the backslash *)
Inductive quoted (q : Z) : list Z -> Prop :=
| QT_end : quoted q []
| QT_byte b s : b <> 92 -> b <> q -> quoted q s -> quoted q (b :: s)
| QT_escape b s : quoted q s -> quoted q (92 :: b :: s).
(** docs.go:43-76: strings, names, names of types and templates, regular expressions, directives, operators *)
Inductive documented : tok -> Prop :=
| DC_double s : quoted 34 s -> documented (mkT KString (34 :: s ++ [34]))
| DC_single s : ~ In 39 s -> documented (mkT KString (39 :: s ++ [39]))
| DC_name n : aName n -> documented (mkT KName n)
| DC_dir s : s <> [] -> Forall (fun b => 97 <= b <= 122) s -> documented (mkT KDir (33 :: s))
| DC_template n : aName n -> documented (mkT KTemplate (36 :: 36 :: n))
| DC_token n : aName n -> documented (mkT KToken (36 :: n))
| DC_end : documented (mkT KToken [36])
| DC_regexp s : s <> [] -> quoted 47 s -> documented (mkT KRegexp (47 :: s ++ [47]))
| DC_op b : In b [40; 41; 123; 125; 91; 93; 61; 124; 44; 59; 64] -> documented (mkT KOp [b]).
(** No line feed after a backslash, none at all in a string in single quotes *)
Inductive escapesInLine : list Z -> Prop :=
| EL_end : escapesInLine []
| EL_byte b s : b <> 92 -> escapesInLine s -> escapesInLine (b :: s)
| EL_escape b s : b <> 10 -> escapesInLine s -> escapesInLine (92 :: b :: s).
Definition inLine (t : tok) : Prop :=
  match tText t with
  | 39 :: s => ~ In 10 s
  | 34 :: s => escapesInLine s
  | 47 :: s => escapesInLine s
  | _ => True
  end.

Section T.
Variable isToken : tok -> Prop.
(** [t] is the longest token at the start of [t ++ rest] *)
Definition longest (t : tok) (rest : list Z) : Prop :=
  forall t' rest', isToken t' -> tText t ++ rest = tText t' ++ rest' -> (length (tText t') <= length (tText t))%nat.
(** [splits text l left]: [text] is tokens [l] with spaces and comments between them, then [left], which is either empty or
    starts with something that is neither space, nor comment, nor token. *)
Inductive splits : list Z -> list tok -> list Z -> Prop :=
| SP_end : splits [] [] []
| SP_space b s l left : spaceByte b -> splits s l left -> splits (b :: s) l left
| SP_comment c s l left : ~ In 10 c -> s = [] \/ hd_error s = Some 10 -> splits s l left -> splits (35 :: c ++ s) l left
| SP_token t s l left : isToken t -> longest t s -> splits s l left -> splits (tText t ++ s) (t :: l) left
| SP_wrong b s : ~ spaceByte b -> b <> 35 -> (forall t r, isToken t -> b :: s <> tText t ++ r) -> splits (b :: s) [] (b :: s).
End T.
Definition tailOf (left : list Z) : tail := match left with [] => TEnd | _ => TWrong end.
