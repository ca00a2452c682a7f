(** Specification: syntax trees of a grammar description.  No state machines here: a tree is read off the
    definitions of nodes (EBNF). *)
From Coq Require Import ZArith List Bool.
From Verif Require Import Base Grammar RulesSpec ParserSpec LangBuild.
Import ListNotations.
Open Scope Z_scope.

(** [$] (end of input) stands only where a node ends; [last]: the node ends after the definition. *)
Fixpoint eoiLast (c : chunk) (last : bool) {struct c} : bool :=
  match c with
  | CTok _ | CNode _ => true
  | CEoi => last
  | CVar l => forallb (fun c => eoiLast c last) l
  | CGroup _ rep l =>
      (fix go (l : list chunk) : bool :=
         match l with
         | [] => true
         | c :: l' => eoiLast c (match l' with [] => last && negb rep | _ => false end) && go l'
         end) l
  end.

(** Tokens a definition mentions *)
Inductive mentionsToken : chunk -> Z -> Prop :=
| MT_tok t : mentionsToken (CTok t) t
| MT_var l c t : In c l -> mentionsToken c t -> mentionsToken (CVar l) t
| MT_group opt rep l c t : In c l -> mentionsToken c t -> mentionsToken (CGroup opt rep l) t.

(** [token t k]: the token [t] may be used where the description has the token [k] (or [EoiToken], the end
    of input); [side t]: the token is a side one (space, comment). *)
Section Trees.
Context {Tok Inst R : Type} (token : Tok -> Z -> Prop) (side : Tok -> Prop).
Variable defs : list chunk.
Notation tree := (tree Tok Inst R).

(** side tokens may stand anywhere *)
Inductive withSides : list tree -> list tree -> Prop :=
| WS_nil : withSides [] []
| WS_side t l core : side t -> withSides l core -> withSides (Leaf t :: l) core
| WS_keep T l core : withSides l core -> withSides (T :: l) (T :: core).

(** [fits d l]: the trees [l] (without side tokens) match the definition; [conforms i T]: [T] is the tree of the node [i]. *)
Inductive fits : chunk -> list tree -> Prop :=
| F_token k t : token t k -> fits (CTok k) [Leaf t]
| F_eoi t : token t EoiToken -> fits CEoi [Leaf t]
| F_nested i T : conforms i T -> fits (CNode i) [T]
| F_variant l c ts : In c l -> fits c ts -> fits (CVar l) ts
| F_once opt rep l ts : fitsSeq l ts -> fits (CGroup opt rep l) ts
| F_never rep l : fits (CGroup true rep l) []
| F_again opt l ts us : fitsSeq l ts -> fits (CGroup opt true l) us -> fits (CGroup opt true l) (ts ++ us)
with fitsSeq : list chunk -> list tree -> Prop :=
| FS_nil : fitsSeq [] []
| FS_cons c l ts us : fits c ts -> fitsSeq l us -> fitsSeq (c :: l) (ts ++ us)
with conforms : Z -> tree -> Prop :=
| C_node i d t0 hooks results kids core : zget defs i = Some d -> withSides kids core -> fits d core ->
    conforms i (Node i t0 hooks results kids).
End Trees.
