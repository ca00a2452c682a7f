(** Specification: definitions of nodes where the next token tells what to do (LL(1), the textbook conditions for EBNF). *)
From Coq Require Import ZArith List Bool.
From Verif Require Import Base Grammar LangBuild LangSpec LangNodesSpec.
Import ListNotations.
Open Scope Z_scope.

Section D.
Variable defs : list (option chunk).
(** [clash k k']: tokens of a grammar (types and literals) that may be confused: they are the same, or some token of some source is both *)
Variable clash : Z -> Z -> Prop.

(** A token a symbol begins with *)
Definition opens (x : sym) (k : Z) : Prop :=
  match x with
  | STok t => k = t
  | SEoi => k = EoiToken
  | SNode j _ => firstToken defs j k
  end.
(** [begins c k]: something that [c] stands for begins with [k]; [mayOmit c]: [c] stands for nothing at all, too *)
Definition begins (c : chunk) (k : Z) : Prop := exists x w, stringOf c (x :: w) /\ opens x k.
Definition mayOmit (c : chunk) : Prop := stringOf c [].
(** a sequence *)
Definition sequence (l : list chunk) : chunk := CGroup false false l.

(** [follows i k]: [k] may come right after the node [i] *)
Inductive follows : Z -> Z -> Prop :=
| FO_next j d v i u x w k : defined defs j d -> stringOf d (v ++ SNode i u :: x :: w) -> opens x k -> follows i k
| FO_last j d v i u k : defined defs j d -> stringOf d (v ++ [SNode i u]) -> follows j k -> follows i k.

Definition apart (A B : Z -> Prop) : Prop := forall k k', A k -> B k' -> ~ clash k k'.

(** [decided A c]: when [c] is being read and may be followed by [A], the next token tells what to do.
    - Variants begin with different tokens; if some variant may be empty, then no variant begins with what may come after.
    - What is optional or repeated does not begin with what may come after it.
    - A part of a sequence may be followed by the rest of it; the last part of what is repeated, also by the first one. *)
Inductive decided : (Z -> Prop) -> chunk -> Prop :=
| DC_token A t : decided A (CTok t)
| DC_eoi A : decided A CEoi
| DC_nested A i : decided A (CNode i)
| DC_variant (A : Z -> Prop) l :
    (forall c, In c l -> decided A c) ->
    ForallOrdPairs (fun c c' => apart (begins c) (begins c')) l ->
    (forall c c', In c l -> In c' l -> mayOmit c -> apart (begins c') A) ->
    decided A (CVar l)
| DC_group (A : Z -> Prop) opt rep l :
    (opt = true -> apart (begins (sequence l)) A) ->
    decidedSeq (fun k => A k \/ rep = true /\ begins (sequence l) k) l ->
    decided A (CGroup opt rep l)
with decidedSeq : (Z -> Prop) -> list chunk -> Prop :=
| DQ_nil A : decidedSeq A []
| DQ_cons (A : Z -> Prop) c l :
    decided (fun k => begins (sequence l) k \/ mayOmit (sequence l) /\ A k) c ->
    decidedSeq A l ->
    decidedSeq A (c :: l).

(** A description is LL(1): each definition is, given what may follow its node. *)
Definition ll1 : Prop := forall i d, defined defs i d -> decided (follows i) d.
End D.

(** A part of a sequence that may be omitted is not made of parts that all may be omitted, unless it is the last one: for the parts of
    [(['a'], ['b'])], [[{'a'}]] the construction of states makes rules to skip them, which stay beside the rules copied from the state
    that follows. *)
Fixpoint skipsOnce (c : chunk) : bool :=
  match c with
  | CTok _ | CEoi | CNode _ => true
  | CVar l => forallb skipsOnce l
  | CGroup _ _ l =>
      forallb skipsOnce l &&
      (fix go (l : list chunk) : bool :=
         match l with
         | [] => true
         | c :: l' => match l' with [] => true | _ => negb (isOptional c && leaves c true) && go l' end
         end) l
  end.
Fixpoint skipsOnceSeq (l : list chunk) : bool :=
  match l with
  | [] => true
  | c :: l' => match l' with [] => true | _ => negb (isOptional c && leaves c true) && skipsOnceSeq l' end
  end.
