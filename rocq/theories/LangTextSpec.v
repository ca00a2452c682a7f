(** Specification: what tokens of descriptions look like (langdef/docs.go:26-38, 41-76; parser.go:167-176). *)
From Coq Require Import ZArith List Bool.
From Verif Require Import Base Grammar LangStringSpec LangText.
Import ListNotations.
Open Scope Z_scope.

Definition letter (b : Z) : Prop := 97 <= b <= 122 \/ 65 <= b <= 90 \/ b = 95.
Definition nameByte (b : Z) : Prop := letter b \/ 48 <= b <= 57 \/ b = 45.
Definition aName (n : name) : Prop := exists b r, n = b :: r /\ letter b /\ Forall nameByte r.
(** 36 is "$", 33 "!", 47 "/", 34 and 39 are quotes *)
Inductive lexed : tok -> Prop :=
| LX_double s : body s -> lexed (mkT KString (34 :: s ++ [34]))
| LX_single s : ~ In 39 s -> lexed (mkT KString (39 :: s ++ [39]))
| LX_name n : aName n -> lexed (mkT KName n)
| LX_dir s : s <> [] -> Forall (fun b => 97 <= b <= 122) s -> lexed (mkT KDir (33 :: s))
| LX_template n : aName n -> lexed (mkT KTemplate (36 :: 36 :: n))
| LX_token n : aName n -> lexed (mkT KToken (36 :: n))
| LX_end : lexed (mkT KToken [36])
| LX_regexp s : s <> [] -> lexed (mkT KRegexp (47 :: s ++ [47]))
| LX_op b : In b [40; 41; 123; 125; 91; 93; 61; 124; 44; 59; 64] -> lexed (mkT KOp [b]).
(** an operator other than "=" *)
Definition closing (t : tok) : Prop := tKind t = KOp /\ tText t <> [61].
(** A description does not end within a list of arguments of a directive or within a regular expression: its last token is an
    operator other than "=" (each definition, directive and layer ends with ";"), or there are no tokens at all, or what
    follows is not a token. *)
Definition endsWell (input : list tok) (end_ : tail) : Prop := end_ = TWrong \/ input = [] \/ exists l t, input = l ++ [t] /\ closing t.
