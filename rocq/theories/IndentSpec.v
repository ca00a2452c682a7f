(** Specification of hook layer indent, after the package comment of indent.go (lines 1-44). *)
From Coq Require Import String ZArith List Bool.
From Verif Require Import Base Grammar LangTypes StdLayers StdLayersSpec Indent.
From Verif Require Lexer LangText.
Import ListNotations.
Local Open Scope string_scope.
Local Open Scope list_scope.
Open Scope Z_scope.

Section Spec.
Context {Pos : Type}.
Notation tok := (ltok Pos).
(** types of space tokens, types of side tokens *)
Variable space side : Z -> Prop.
Variable kind : tok -> role.
(** [kind] tells tokens apart: end of input; special tokens and those with no text; spaces; side tokens; the rest. *)
Definition kinds : Prop := forall t, let ty := lType t in let special := ty < 0 \/ lText t = [] in
  (kind t = REoi <-> ty = Lexer.EoiTokenType) /\
  (kind t = REmpty <-> ty <> Lexer.EoiTokenType /\ special) /\
  (kind t = RSpace <-> ~ special /\ space ty) /\
  (kind t = RSide <-> ~ special /\ ~ space ty /\ side ty).

(** ** Balance *)
(** Tokens given out by the layer: kept ones, those put in on indents, those put in on dedents *)
Inductive mark := Kept | Up | Down.
Definition isKept (p : mark * tok) : bool := match fst p with Kept => true | _ => false end.
Definition kept (l : list (mark * tok)) : list tok := map snd (filter isKept l).
(** the number of open indents after the list, [None] if there is a dedent with no indent *)
Fixpoint walk (n : nat) (l : list (mark * tok)) : option nat :=
  match l with
  | [] => Some n
  | (Kept, _) :: r => walk n r
  | (Up, _) :: r => walk (S n) r
  | (Down, _) :: r => match n with O => None | S n => walk n r end
  end.
Definition isEmpty (t : tok) : bool := match kind t with REmpty => true | _ => false end.
Definition nonEmpty (l : list tok) : list tok := filter (fun t => negb (isEmpty t)) l.
Definition empties (l : list tok) : list tok := filter isEmpty l.
(** all but kept tokens with no text *)
Definition solidb (p : mark * tok) : bool := negb (isKept p && isEmpty (snd p)).
Definition solid (a : list (mark * tok)) : list (mark * tok) := filter solidb a.
(** marks tell the truth: these are tokens for indents and for dedents *)
Definition honest (indentTok dedentTok : tok) (l : list (mark * tok)) : Prop := forall m t, In (m, t) l -> (m = Up -> t = indentTok) /\ (m = Down -> t = dedentTok).
(** What the layer is told of the token after a space or a side one is true: it is told something, and a common token announced is the next one. *)
Fixpoint truePeeks {PE : Type} (s : list (tok * (option tok * option PE))) : Prop :=
  match s with
  | [] => True
  | (t, p) :: r => (kind t = RSpace \/ kind t = RSide -> exists n, p = (Some n, None) /\ (kind n = RCommon -> exists c pc r', r = (c, pc) :: r' /\ kind c = RCommon)) /\ truePeeks r
  end.

(** ** Lines *)
Variable indentTok dedentTok : tok.
(** a space token with a line break; what is after the last one *)
Definition newline (t : tok) (s : name) : Prop := kind t = RSpace /\ exists p, lText t = p ++ 10 :: s /\ ~ In 10 s.
Definition noNewline (l : list tok) : Prop := forall t s, In t l -> ~ newline t s.
Definition noSide (l : list tok) : Prop := forall t, In t l -> kind t <> RSide.
Definition spacing (l : list tok) : name := concat (map (fun t => match kind t with RSpace => lText t | _ => [] end) l).
(** [l] are all tokens between two common tokens, or between the start of the input ([first]) and the first common token.
    A new line starts there. *)
Definition newLine (first : bool) (l : list tok) : Prop := first = true \/ ~ noNewline l.
(** the indentation of the new line; no side tokens in it *)
Inductive indentation (first : bool) : list tok -> name -> Prop :=
| in_line p n s q : newline n s -> noNewline q -> noSide q -> indentation first (p ++ n :: q) (s ++ spacing q)
| in_first l : first = true -> noNewline l -> noSide l -> indentation first l (spacing l).
(** Levels: indentations that are open, the deepest first, the empty one last.  [move]: tokens to put in for a line with the indentation. *)
Inductive move : list name -> name -> list (mark * tok) -> list name -> Prop :=
| mv_same i lv : move (i :: lv) i [] (i :: lv)
| mv_in i x lv : x <> [] -> move (i :: lv) (i ++ x) [(Up, indentTok)] ((i ++ x) :: i :: lv)
| mv_out i d lv : d <> [] -> ~ In i d -> move (d ++ i :: lv) i (map (fun _ => (Down, dedentTok)) d) (i :: lv).
(** Tokens are put in before spaces that made the new line: those after the last side token, but not those of the old line. *)
Inductive placed (first : bool) : list tok -> list (mark * tok) -> list (mark * tok) -> Prop :=
| pl p q ins : noSide q ->
    ((first = true \/ ~ noNewline p) /\ (p = [] \/ exists p' t, p = p' ++ [t] /\ kind t = RSide)) \/
    (first = false /\ noNewline p /\ exists n s q', q = n :: q' /\ newline n s) ->
    placed first (p ++ q) ins (map (pair Kept) p ++ ins ++ map (pair Kept) q).
Definition between (l : list tok) : Prop := forall t, In t l -> kind t = RSpace \/ kind t = RSide.
(** The whole input up to the end of input token, but for tokens with no text *)
Inductive layout : bool -> list name -> list tok -> list (mark * tok) -> Prop :=
| lo_old lv l c r o : between l -> kind c = RCommon -> ~ newLine false l -> layout false lv r o -> layout false lv (l ++ c :: r) (map (pair Kept) (l ++ [c]) ++ o)
| lo_new first lv l c i ins lv' ol r o : between l -> kind c = RCommon -> newLine first l -> indentation first l i -> move lv i ins lv' -> placed first l ins ol ->
    layout false lv' r o -> layout first lv (l ++ c :: r) (ol ++ (Kept, c) :: o)
| lo_end first lv l e ol : between l -> kind e = REoi -> (newLine first l -> placed first l (map (fun _ => (Down, dedentTok)) (tl lv)) ol) ->
    (~ newLine first l -> ol = map (pair Kept) l ++ map (fun _ => (Down, dedentTok)) (tl lv)) -> layout first lv (l ++ [e]) (ol ++ [(Kept, e)]).
End Spec.

(** ** Definitions of the layer *)
(** "All commands are required, each command must be used exactly once." *)
Inductive indentCmd (tokenType : name -> option Z) : gcommand -> Prop :=
| ic_space x args : (forall n, In n (x :: args) -> exists i, tokenType n = Some i /\ 0 <= i) -> indentCmd tokenType (mkCmd (b "space") (x :: args))
| ic_in n i : tokenType n = Some i -> 0 <= i -> indentCmd tokenType (mkCmd (b "on-indent") [n])
| ic_out n i : tokenType n = Some i -> 0 <= i -> indentCmd tokenType (mkCmd (b "on-dedent") [n]).
Definition once (cmd : name) (cs : list gcommand) : Prop := exists c p r, cs = p ++ c :: r /\ gcName c = cmd /\ ~ has cmd p /\ ~ has cmd r.
Record indentDef (tokenType : name -> option Z) (cs : list gcommand) : Prop := mkIndentDef {
  id_each : Forall (indentCmd tokenType) cs;
  id_space : once (b "space") cs;
  id_in : once (b "on-indent") cs;
  id_out : once (b "on-dedent") cs
}.
